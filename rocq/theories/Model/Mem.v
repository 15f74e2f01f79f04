(** * Shared memory of one [ConcurrentVec], sequentially consistent semantics of the
      atomic accesses, and the solo interpreter. *)

From Coq Require Import List Arith Bool.
From Verif.Model Require Import Prog.
Import ListNotations.

Section Mem.
  Context {V : Type}.

  (** Parameters of an execution that are not state. *)
  Record env : Type := Env {
    (** [usize] has [wmod] values: 2^64 (or 2^32).  All theorems hold for every [wmod]. *)
    wmod : nat;
    (** overflow checks enabled (debug profile) or not (release profile) *)
    ochk : bool;
    (** growth of the pinned vector (external: orx-fixed-vec, orx-split-vec, or a user type):
        [policy cap max n] is the capacity after [grow_to(n)], [None] if it fails *)
    policy : nat -> nat -> nat -> option nat;
    (** capacities the pinned vector can have, with its maximum capacity *)
    capok : nat -> nat -> Prop;
    (** [reserve cap max n]: maximum capacity after reserve_maximum_capacity(n) *)
    reserve : nat -> nat -> nat -> option nat;
    (** [PartialEq::eq] of the element type; nothing is assumed about it *)
    eqv : V -> V -> bool;
    (** whether the public [ConcurrentOption::mut_handle] (used by [swap] only) waits while another
        handle is alive ([true]) or gives up ([false]); the source of that dependency is not in the
        repository, so the theorems cover both *)
    hspin : bool
  }.

  (** One [ConcurrentElement] (/repo/src/elem.rs:11): the state byte and the value of the wrapped
      [ConcurrentOption].  [swr], [srd] are not in the code: they record which thread is in the
      middle of a [&mut T] / [&T] access, so that overlapping conflicting accesses are detected. *)
  Record slot : Type := Slot {
    sst : st;
    sval : option V;
    swr : option nat;
    srd : list nat
  }.

  (** A freshly allocated element: [ConcurrentElement(ConcurrentOption::none())],
      /repo/src/state.rs:18 (fill_memory_with). *)
  Definition fresh : slot := Slot NONE None None [].
  Definition filled (v : V) : slot := Slot SOME (Some v) None [].

  (** /repo/src/state.rs:11-14 [ConcurrentVecState] (the two counters), and the parts of
      [PinnedConcurrentCol] / the pinned vector used by the crate: published capacity, maximum
      capacity, the elements, and the thread that is currently allocating. *)
  Record shared : Type := Shared {
    resv : nat;              (* len_reserved *)
    wrtn : nat;              (* len_written *)
    cap : nat;               (* con_pinned_vec.capacity() *)
    maxc : nat;              (* con_pinned_vec.max_capacity() *)
    growing : option nat;    (* thread inside grow_to, not in the code *)
    slots : nat -> slot      (* element at each position < cap *)
  }.

  Definition upd {A} (f : nat -> A) (i : nat) (x : A) : nat -> A :=
    fun j => if Nat.eqb j i then x else f j.

  Definition set_slot (s : shared) (i : nat) (x : slot) : shared :=
    Shared (resv s) (wrtn s) (cap s) (maxc s) (growing s) (upd (slots s) i x).

  (** What an atomic access did, recorded in the history. *)
  Inductive acc : Type :=
  | AcAdd (b n : nat)                 (* reserved positions b .. b+n-1 *)
  | AcInit (i : nat) (v : V)          (* position i became available with value v *)
  | AcRead (i : nat) (v : V)          (* value of position i read *)
  | AcWrite (i : nat) (old new : V)   (* value of position i changed *)
  | AcSwap (i j : nat) (vi vj : V)    (* values vi, vj of positions i, j exchanged *)
  | AcSt (i : nat) (s : st)           (* state of position i observed *)
  | AcResv (n : nat)                  (* len_reserved observed *)
  | AcCap (n : nat).                  (* capacity observed *)

  Inductive outcome (A : Type) : Type :=
  | Done (x : A) (s : shared) (l : list acc)
  | Bad (f : fault).
  Global Arguments Done {A}.
  Global Arguments Bad {A}.

  Fixpoint remove1 (t : nat) (l : list nat) : list nat :=
    match l with [] => [] | u :: l' => if Nat.eqb t u then l' else u :: remove1 t l' end.

  (** Memory newly allocated by growth is filled with [ConcurrentOption::none()]
      (/repo/src/state.rs:17-19). *)
  Definition fill_fresh (f : nat -> slot) (a b : nat) : nat -> slot :=
    fun j => if (a <=? j) && (j <? b) then fresh else f j.

  Definition with_slot {A} (s : shared) (i : nat) (k : slot -> outcome A) : outcome A :=
    if i <? cap s then k (slots s i) else Bad FOob.

  Definition is_none {A} (o : option A) : bool := match o with None => true | Some _ => false end.
  Definition is_nil {A} (l : list A) : bool := match l with [] => true | _ => false end.
  Definition is_tid (o : option nat) (t : nat) : bool :=
    match o with Some u => Nat.eqb u t | None => false end.

  (** Effect of one atomic access by thread [t]. *)
  Definition exec (E : env) (t : nat) (a : act V) (s : shared) : outcome (res a) :=
    match a return outcome (res a) with
    | LoadResv _ => Done (resv s) s [AcResv (resv s)]
    | AddResv n _ =>                                       (* fetch_add wraps around *)
        Done (resv s)
             (Shared ((resv s + n) mod wmod E) (wrtn s) (cap s) (maxc s) (growing s) (slots s))
             [AcAdd (resv s) n]
    | LoadWrtn _ => Done (wrtn s) s []
    | MaxWrtn n _ =>
        Done (wrtn s)
             (Shared (resv s) (Nat.max (wrtn s) n) (cap s) (maxc s) (growing s) (slots s)) []
    | LoadCap => Done (cap s) s [AcCap (cap s)]
    | LoadMax => Done (maxc s) s []
    | LoadSt i _ => with_slot s i (fun x => Done (sst x) s [AcSt i (sst x)])
    | CasSt i e n => with_slot s i (fun x =>
        if st_eqb (sst x) e
        then Done (true, sst x) (set_slot s i (Slot n (sval x) (swr x) (srd x))) []
        else Done (false, sst x) s [AcSt i (sst x)])
    | StoreSt i n => with_slot s i (fun x =>
        match sst x, n, sval x with
        | NONE, SOME, None => Bad FUninit
        | NONE, SOME, Some v => Done tt (set_slot s i (Slot n (sval x) (swr x) (srd x))) [AcInit i v]
        | _, _, _ => Done tt (set_slot s i (Slot n (sval x) (swr x) (srd x))) []
        end)
    | RdBeg i => with_slot s i (fun x =>
        if is_none (swr x)
        then Done tt (set_slot s i (Slot (sst x) (sval x) (swr x) (t :: srd x))) []
        else Bad FRace)
    | RdEnd i => with_slot s i (fun x =>
        match sval x with
        | Some v =>
            if is_none (swr x)
            then Done v (set_slot s i (Slot (sst x) (sval x) (swr x) (remove1 t (srd x)))) [AcRead i v]
            else Bad FRace
        | None => Bad FUninit
        end)
    | WrBeg i => with_slot s i (fun x =>
        if is_none (swr x) && is_nil (srd x)
        then Done tt (set_slot s i (Slot (sst x) (sval x) (Some t) (srd x))) []
        else Bad FRace)
    | WrEnd i f => with_slot s i (fun x =>
        if is_tid (swr x) t && is_nil (srd x)
        then match sval x with
             | Some v => Done v (set_slot s i (Slot (sst x) (Some (f v)) None (srd x))) [AcWrite i v (f v)]
             | None => Bad FUninit
             end
        else Bad FRace)
    | SwapEnd i j => with_slot s i (fun x => with_slot s j (fun y =>
        if is_tid (swr x) t && is_nil (srd x) && is_tid (swr y) t && is_nil (srd y)
        then match sval x, sval y with
             | Some v, Some w =>
                 let s1 := set_slot s i (Slot (sst x) (Some w) None (srd x)) in
                 Done tt (set_slot s1 j (Slot (sst y) (Some v) None (srd y))) [AcSwap i j v w]
             | _, _ => Bad FUninit
             end
        else Bad FRace))
    | InitBeg i => with_slot s i (fun x =>
        if st_eqb (sst x) NONE then
          if is_none (swr x) && is_nil (srd x)
          then Done tt (set_slot s i (Slot (sst x) (sval x) (Some t) (srd x))) []
          else Bad FRace
        else Bad FReinit)
    | InitEnd i v => with_slot s i (fun x =>
        if is_tid (swr x) t && is_nil (srd x)
        then Done tt (set_slot s i (Slot (sst x) (Some v) None (srd x))) []
        else Bad FRace)
    | IterRange a b => if (a <=? b) && (b <=? cap s) then Done tt s [] else Bad FRange
    | GrowBeg n =>
        match growing s with
        | Some _ => Bad FRace
        | None =>
            match policy E (cap s) (maxc s) n with
            | Some _ => Done true (Shared (resv s) (wrtn s) (cap s) (maxc s) (Some t) (slots s)) []
            | None => Done false s []
            end
        end
    | GrowEnd n =>
        if is_tid (growing s) t then
          match policy E (cap s) (maxc s) n with
          | Some c => Done tt (Shared (resv s) (wrtn s) c (maxc s) None (fill_fresh (slots s) (cap s) c)) []
          | None => Bad FOob
          end
        else Bad FRace
    end.

  (** ** Solo interpreter: the program runs with no other thread taking steps.  A spin loop
      whose exit condition is false would never see a different state: it hangs. *)
  Inductive sres (R : Type) : Type :=
  | SDone (r : R) (s : shared)
  | SPan (m : panic) (s : shared)
  | SHang (s : shared)
  | SBad (f : fault).
  Global Arguments SDone {R}.
  Global Arguments SPan {R}.
  Global Arguments SHang {R}.
  Global Arguments SBad {R}.

  Fixpoint solo {R} (E : env) (t : nat) (p : prog V R) (s : shared) : sres R :=
    match p with
    | Ret r => SDone r s
    | Pan m => SPan m s
    | Act a k => match exec E t a s with
                 | Done x s' _ => solo E t (k x) s'
                 | Bad f => SBad f
                 end
    | Spin a again k => match exec E t a s with
                        | Done x s' _ => if again x then SHang s else solo E t (k x) s'
                        | Bad f => SBad f
                        end
    end.

  (** ** [usize] arithmetic: with overflow checks an overflow panics, without it wraps. *)
  Definition uadd (E : env) (a b : nat) : option nat :=
    if a + b <? wmod E then Some (a + b)
    else if ochk E then None else Some ((a + b) mod wmod E).
  Definition usub (E : env) (a b : nat) : option nat :=
    if b <=? a then Some (a - b)
    else if ochk E then None else Some (a + wmod E - b).
End Mem.

Global Arguments env : clear implicits.
Global Arguments slot : clear implicits.
Global Arguments shared : clear implicits.
Global Arguments acc : clear implicits.
Global Arguments outcome : clear implicits.
Global Arguments sres : clear implicits.
