(** * Programs: the control structure shared by every modelled function.

    A Rust function of the crate is modelled by a value of type [prog R]: a tree whose
    inner nodes are the *atomic* accesses the function makes to memory shared between
    threads, and whose leaves are either a returned value or a panic.  The same trees are
    interpreted by two different memory semantics: sequentially consistent interleaving
    ([Model/Mem.v], [Model/Machine.v]) and a release/acquire view machine ([RA/]). *)

From Coq Require Import List Arith Bool.
Import ListNotations.

(** State byte of an [orx_concurrent_option::ConcurrentOption]; external dependency
    (orx-concurrent-option 1.3, constants [NONE], [RESERVED], [SOME]; [SOME] is imported in
    /repo/src/mut_elem.rs:2). *)
Inductive st : Type := NONE | RESERVED | SOME.

Definition st_eqb (a b : st) : bool :=
  match a, b with
  | NONE, NONE | RESERVED, RESERVED | SOME, SOME => true
  | _, _ => false
  end.

Lemma st_eqb_spec a b : reflect (a = b) (st_eqb a b).
Proof. destruct a, b; simpl; constructor; congruence. Qed.

(** [core::sync::atomic::Ordering] as used in /repo/src/vec.rs:120-138, grow.rs:126,158,314,435,
    state.rs:87, unsafe_api.rs:46,162,273,311.  The sequentially consistent machine ignores it,
    the release/acquire machine does not. *)
Inductive ord : Type := Relaxed | Acquire | Release | AcqRel | SeqCst.

(** Panics.  Every panic of the modelled code is an explicit value. *)
Inductive panic : Type :=
| PMaxCap        (* orx-pinned-concurrent-col: "Out of capacity", index >= maximum capacity *)
| PGrow          (* orx-pinned-concurrent-col: underlying pinned vector failed to grow *)
| PShortIter     (* grow.rs:324,443 "provided iterator is shorter than expected num_items" *)
| PIterLen       (* grow.rs:318 assert_eq!(values.len(), num_items) *)
| PClosure       (* a user closure / iterator panicked *)
| PHasValue      (* elem.rs:180 "ConcurrentElement must always have a value" *)
| PSet           (* elem.rs:149 "Failed to set the element" *)
| PUpdate        (* elem.rs:174 "Failed to update the element" *)
| POutOfBounds   (* common_traits/index.rs:21,41 "out-of-bounds" *)
| PAssert        (* split.rs:28,126; concurrent_slice/split.rs:35,136 *)
| POverflow.     (* arithmetic overflow with overflow checks enabled *)

(** Violations of a safety contract of the code (undefined behaviour in Rust). *)
Inductive fault : Type :=
| FRace          (* two conflicting, unsynchronised accesses to the same memory *)
| FOob           (* access to a position at or beyond the allocated capacity *)
| FUninit        (* reading a value that was never written *)
| FReinit        (* initialize_unchecked on a position that is not NONE *)
| FRange.        (* iter_over_range(a..b) without a <= b <= capacity *)

Section Prog.
  (** [V] is the element type [T]; it is also used for the results of user closures
      ([U] in /repo/src/elem.rs:95), any [U] can be embedded by taking [V] to be a sum. *)
  Context {V : Type}.

  (** Atomic accesses.  [i] is the position of the element in the vector. *)
  Inductive act : Type :=
  | LoadResv (o : ord)                 (* len_reserved.load *)
  | AddResv (n : nat) (o : ord)        (* len_reserved.fetch_add *)
  | LoadWrtn (o : ord)                 (* len_written.load *)
  | MaxWrtn (n : nat) (o : ord)        (* len_written.fetch_max *)
  | LoadCap                            (* con_pinned_vec.capacity() *)
  | LoadMax                            (* con_pinned_vec.max_capacity() *)
  | LoadSt (i : nat) (o : ord)         (* state.load *)
  | CasSt (i : nat) (e n : st)         (* state.compare_exchange(e, n, Acquire, Relaxed) *)
  | StoreSt (i : nat) (s : st)         (* state.store(s, Release) *)
  | RdBeg (i : nat)                    (* start of a [&T] access to the value *)
  | RdEnd (i : nat)                    (* end of a [&T] access; yields the value *)
  | WrBeg (i : nat)                    (* start of a [&mut T] access to the value *)
  | WrEnd (i : nat) (f : V -> V)       (* end of a [&mut T] access that maps the value by f; yields the old value *)
  | SwapEnd (i j : nat)                (* core::mem::swap on two [&mut T], ends both accesses *)
  | InitBeg (i : nat)                  (* start of the value write of initialize_unchecked *)
  | InitEnd (i : nat) (v : V)          (* end of that write *)
  | IterRange (a b : nat)              (* iter_over_range(a..b): safety contract of the range *)
  | GrowBeg (n : nat)                  (* start of grow_to(n): allocation by the calling thread *)
  | GrowEnd (n : nat).                 (* end of grow_to(n): new capacity is published *)

  Definition res (a : act) : Type :=
    match a with
    | LoadResv _ | AddResv _ _ | LoadWrtn _ | MaxWrtn _ _ | LoadCap | LoadMax => nat
    | LoadSt _ _ => st
    | CasSt _ _ _ => (bool * st)%type      (* success?, previous state *)
    | RdEnd _ => V
    | WrEnd _ _ => V
    | GrowBeg _ => bool
    | _ => unit
    end.

  (** [Spin a again k]: perform [a]; while [again] holds of the result stay in the loop,
      otherwise go on with [k].  Both busy-wait loops of the code have this shape: one atomic
      access per iteration. *)
  Inductive prog (R : Type) : Type :=
  | Ret (r : R)
  | Pan (m : panic)
  | Act (a : act) (k : res a -> prog R)
  | Spin (a : act) (again : res a -> bool) (k : res a -> prog R).

  Global Arguments Ret {R} r.
  Global Arguments Pan {R} m.
  Global Arguments Act {R} a k.
  Global Arguments Spin {R} a again k.

  Fixpoint bind {A B : Type} (p : prog A) (f : A -> prog B) : prog B :=
    match p with
    | Ret r => f r
    | Pan m => Pan m
    | Act a k => Act a (fun x => bind (k x) f)
    | Spin a again k => Spin a again (fun x => bind (k x) f)
    end.

  Definition fmap {A B : Type} (f : A -> B) (p : prog A) : prog B := bind p (fun x => Ret (f x)).

  (** A single atomic access as a program. *)
  Definition doo (a : act) : prog (res a) := Act a (fun x => Ret x).

  (** Lift a partial computation: [None] is a panic with message [m]. *)
  Definition chk {A} (m : panic) (x : option A) : prog A :=
    match x with Some y => Ret y | None => Pan m end.

  (** A closure of type [FnMut] may keep state between its calls: [f k] is what the call number [k] does;
      [later f] is the closure after its first call. *)
  Definition later {A : Type} (f : nat -> A) : nat -> A := fun k => f (S k).

  (** [for x in l { f(x) }] collecting the results / threading an accumulator. *)
  Fixpoint mapP {A B} (f : A -> prog B) (l : list A) : prog (list B) :=
    match l with
    | [] => Ret []
    | x :: l' => bind (f x) (fun y => bind (mapP f l') (fun ys => Ret (y :: ys)))
    end.

  Fixpoint foldP {A B} (f : B -> A -> prog B) (b : B) (l : list A) : prog B :=
    match l with
    | [] => Ret b
    | x :: l' => bind (f b x) (fun b' => foldP f b' l')
    end.
End Prog.

Global Arguments act : clear implicits.
Global Arguments prog : clear implicits.
Global Arguments res {V} a.

Declare Scope prog_scope.
Delimit Scope prog_scope with prog.
Notation "'let!' x ':=' p 'in' q" := (bind p (fun x => q))
  (at level 200, x pattern, p at level 100, q at level 200, right associativity) : prog_scope.
Notation "p ';;' q" := (bind p (fun _ => q)) (at level 100, q at level 200, right associativity) : prog_scope.
