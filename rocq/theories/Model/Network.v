(** * Closures that use other vectors.

    In [Model/Reentrant.v] the closure passed to a method of a vector calls methods of that vector.  It can as
    well use any other vector it owns a reference to: [a[0].map(|x| b.push(x))].  Here the threads share a
    family of vectors, numbered by [nat], each of them as in [Model/Reentrant.v]; a thread has one stack of
    unfinished calls for all of them. *)

From Coq Require Import List Arith Bool.
From Verif.Model Require Import Prog Mem Deps State Elem Vec Excl Machine Reentrant.
Import ListNotations.

Section Network.
  Context {V : Type} (E : nat -> env V).

  Record ncfg : Type := NCfg {
    vecs : nat -> rcfg V;                  (* the vectors *)
    unfinished : nat -> list (nat * nat)        (* the unfinished calls of each thread: vector, call; innermost first *)
  }.

  Definition set_at {A : Type} (f : nat -> A) (k : nat) (x : A) : nat -> A := fun j => if j =? k then x else f j.

  Inductive nstepped : Type :=
  | NNext (c : ncfg)
  | NFault (f : fault)
  | NDisabled.

  (** The innermost call of thread [t] is one of vector [w]. *)
  Definition on_top (c : ncfg) (t w : nat) : bool :=
    match unfinished c t with
    | (w', _) :: _ => w' =? w
    | [] => false
    end.
  (** Does user code run in thread [t]: outside of all calls, or in the closure its innermost call runs? *)
  Definition nturn (c : ncfg) (t : nat) : bool :=
    match unfinished c t with
    | (w, _) :: _ => user_turn (stack t (rrun (vecs c w)))
    | [] => true
    end.

  (** [&mut self] methods of a vector need that no [&self] method of that vector runs; [rstep] asks for this. *)
  Definition nmay (c : ncfg) (w : nat) (l : rlabel V) : bool :=
    match l with
    | NLInv t _ => nturn c t
    | NLStep t | NLAns t _ => on_top c t w
    | NLClear | NLReserve _ => true
    end.
  Definition ncalls (c : ncfg) (w : nat) (l : rlabel V) (r : rcfg V) : nat -> list (nat * nat) :=
    match l with
    | NLInv t _ => set_at (unfinished c) t ((w, length (rhist (vecs c w))) :: unfinished c t)
    | NLStep t => if length (stack t (rrun r)) <? length (stack t (rrun (vecs c w))) then set_at (unfinished c) t (tl (unfinished c t)) else unfinished c
    | _ => unfinished c
    end.

  (** The step [l] on vector [w]. *)
  Definition nstep (c : ncfg) (w : nat) (l : rlabel V) : nstepped :=
    if nmay c w l
    then match rstep (E w) (vecs c w) l with
         | RNext r => NNext (NCfg (set_at (vecs c) w r) (ncalls c w l r))
         | RFault f => NFault f
         | RDisabled => NDisabled
         end
    else NDisabled.

  Definition nstart (l : nat -> list V) (c m : nat -> nat) : ncfg := NCfg (fun w => rstart (l w) (c w) (m w)) (fun _ => []).
End Network.

Global Arguments ncfg : clear implicits.
Global Arguments nstepped : clear implicits.
