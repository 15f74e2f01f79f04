(** * Operations that need exclusive access to the vector ([self] or [&mut self]), and constructors:
      functions on the state, because no other thread can take a step meanwhile. *)

From Coq Require Import List Arith Bool.
From Verif.Model Require Import Prog Mem.
Import ListNotations.

Section Excl.
  Context {V : Type} (E : env V).

  Inductive xres (A : Type) : Type :=
  | XOk (x : A)
  | XPanic                 (* "unwrapped none", to_vec.rs:14; unwrap, into_iter.rs:56 *)
  | XBad (f : fault).
  Global Arguments XOk {A}.
  Global Arguments XPanic {A}.
  Global Arguments XBad {A}.

  (** /repo/src/vec.rs:415-419 [new_from_pinned] (behind [From<P>] and all constructors, new.rs) and
      state.rs:21-26: both counters start at the length of the given pinned vector.  [l] are its
      elements, [c] its capacity, [m] its maximum capacity.  The elements are given by their
      [ConcurrentOption]s; see [init] for elements that all have values. *)
  Definition init_opt (l : list (option V)) (c m : nat) : shared V :=
    Shared (length l) (length l) c m None
           (fun i => match nth_error l i with
                     | Some (Some v) => filled v
                     | _ => fresh
                     end).

  (** Every element has a value. *)
  Definition init (l : list V) (c m : nat) : shared V := init_opt (map Some l) c m.

  (** /repo/src/vec.rs:86-91 [into_inner]: the pinned vector is told that [len_reserved] elements
      exist; its contract needs them to be inside the allocated storage.  The elements are returned
      as they are, [None] for an element without a value. *)
  Definition into_inner (s : shared V) : xres (list (option V)) :=
    if resv s <=? cap s
    then XOk (map (fun i => match sst (slots s i) with SOME => sval (slots s i) | _ => None end)
                  (seq 0 (resv s)))
    else XBad FOob.

  Fixpoint unwrap_all (l : list (option V)) : option (list V) :=
    match l with
    | [] => Some []
    | None :: _ => None
    | Some v :: l' => match unwrap_all l' with Some r => Some (v :: r) | None => None end
    end.

  (** /repo/src/to_vec.rs:10-17; /repo/src/common_traits/into_iter.rs:13-20, 55-57 consumed to the
      end *)
  Definition to_vec (s : shared V) : xres (list V) :=
    match into_inner s with
    | XOk l => match unwrap_all l with Some r => XOk r | None => XPanic end
    | XPanic => XPanic
    | XBad f => XBad f
    end.

  (** /repo/src/exclusive.rs:9-11 [clear] with orx-pinned-concurrent-col's
      [clear(prev_len)] (external): drops [prev_len] elements, keeps the allocated storage filled
      with empty elements, and recreates the state for length 0 (/repo/src/state.rs:28-36). *)
  Definition clear (s : shared V) : xres (shared V) :=
    if resv s <=? cap s
    then XOk (init [] (cap s) (maxc s))
    else XBad FOob.

  (** /repo/src/exclusive.rs:30-35 with orx-pinned-concurrent-col's [reserve_maximum_capacity]
      (external), which returns the new maximum capacity or panics; [reserve] of the environment. *)
  Definition reserve_maximum_capacity (n : nat) (s : shared V) : xres (nat * shared V) :=
    match reserve E (cap s) (maxc s) n with
    | Some m => XOk (m, Shared (resv s) (wrtn s) (cap s) m None (slots s))
    | None => XPanic
    end.

End Excl.

(** ** Growth policies of the pinned vectors used by the constructors of /repo/src/new.rs.
    External (orx-fixed-vec, orx-split-vec); documented in new.rs. *)
Section Policies.
  (** FixedVec: cannot grow. *)
  Definition fixed_policy (cap max n : nat) : option nat := if n <=? cap then Some cap else None.
  Definition fixed_capok (cap max : nat) : Prop := cap = max.

  (** SplitVec, Linear: fragments of equal capacity 2^e are added until [n] elements fit. *)
  Fixpoint add_fragments (fuel : nat) (next : nat -> nat) (cap max n : nat) : option nat :=
    if n <=? cap then Some cap
    else match fuel with
         | 0 => None
         | S k => let c := next cap in if c <=? max then add_fragments k next c max n else None
         end.
  Definition linear_policy (e : nat) (cap max n : nat) : option nat :=
    add_fragments n (fun c => c + 2 ^ e) cap max n.
  Definition linear_capok (e : nat) (cap max : nat) : Prop :=
    exists k f, cap = k * 2 ^ e /\ max = f * 2 ^ e /\ k <= f.

  (** SplitVec, Doubling: the first fragment has capacity 4, each next one twice the previous one;
      so k fragments have capacity 4*(2^k - 1), and adding one maps c to 2c+4. *)
  Definition doubling_policy (cap max n : nat) : option nat :=
    add_fragments n (fun c => 2 * c + 4) cap max n.
  Definition doubling_capok (cap max : nat) : Prop :=
    exists k f, cap = 4 * (2 ^ k - 1) /\ max = 4 * (2 ^ f - 1) /\ k <= f.

  (** reserve_maximum_capacity, /repo/src/exclusive.rs:24-27 (documentation of the external method):
      always an error for FixedVec; SplitVec makes room for as many fragments as are needed. *)
  Fixpoint raise (fuel : nat) (next : nat -> nat) (max n : nat) : nat :=
    if n <=? max then max
    else match fuel with 0 => max | S k => raise k next (next max) n end.
  Definition fixed_reserve (cap max n : nat) : option nat := None.
  Definition linear_reserve (e cap max n : nat) : option nat := Some (raise n (fun c => c + 2 ^ e) max n).
  Definition doubling_reserve (cap max n : nat) : option nat := Some (raise n (fun c => 2 * c + 4) max n).

  (** The environments of the constructors of new.rs: /repo/src/new.rs:54-56 [with_fixed_capacity],
      33-41 [with_linear_growth], 20-22 [with_doubling_growth].  [W]: number of values of [usize];
      [dbg]: overflow checks; [q]: [PartialEq]; [hs]: see [hspin]. *)
  Context {V : Type} (W : nat) (dbg : bool) (q : V -> V -> bool) (hs : bool).
  Definition fixed_env : env V := Env W dbg fixed_policy fixed_capok fixed_reserve q hs.
  Definition linear_env (e : nat) : env V := Env W dbg (linear_policy e) (linear_capok e) (linear_reserve e) q hs.
  Definition doubling_env : env V := Env W dbg doubling_policy doubling_capok doubling_reserve q hs.
End Policies.
