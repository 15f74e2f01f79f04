(** * Executions in which closures use other vectors. *)

From Coq Require Import List Arith Bool Sorted.
From Verif.Model Require Import Prog Mem Deps State Elem Vec Excl Machine Reentrant Network.
From Verif Require Import Client Nested.
Import ListNotations.

Section Net.
  Context {V : Type} (E : nat -> env V).

  (** The discipline of [Client.v], for each vector. *)
  Inductive nreach (ro nl : nat -> bool) (l0 : nat -> list V) (c : ncfg V) : ncfg V -> Prop :=
  | nreach_start : nreach ro nl l0 c c
  | nreach_step c1 w l c2 : nreach ro nl l0 c c1 -> rclient (E w) (ro w) (nl w) (length (l0 w)) (vecs c1 w) l ->
      nstep E c1 w l = NNext c2 -> nreach ro nl l0 c c2.

  Definition nexecution (ro nl : nat -> bool) (l0 : nat -> list V) (c0 m0 : nat -> nat) (c : ncfg V) : Prop :=
    (forall w, env_ok (E w) /\ capok (E w) (c0 w) (m0 w) /\ length (l0 w) <= c0 w /\ length (l0 w) < wmod (E w)) /\
    nreach ro nl l0 (nstart l0 c0 m0) c.

  (** Call [id] of vector [w] is unfinished and the innermost one of its thread, over all vectors. *)
  Definition topmost (c : ncfg V) (w id : nat) : Prop := exists t rest, unfinished c t = (w, id) :: rest.
  (** Call [id2] of vector [w2] is unfinished, and it was made inside a closure that call [id1] of vector [w1] runs. *)
  Definition within (c : ncfg V) (w2 id2 w1 id1 : nat) : Prop :=
    exists t l rest, unfinished c t = l ++ (w2, id2) :: rest /\ In (w1, id1) rest.
  (** The next step of the innermost call of thread [t] is a round of a busy-wait. *)
  Definition nwaits (c : ncfg V) (t : nat) : Prop :=
    exists w id rest, unfinished c t = (w, id) :: rest /\ rstep (E w) (vecs c w) (NLStep t) = RNext (vecs c w).
  (** Closures only use vectors with higher numbers than those of the calls they are inside of. *)
  Definition ordered (c : ncfg V) : Prop := forall t, StronglySorted (fun x y => fst y < fst x) (unfinished c t).
  (** A growth call panicked without room having been made for its positions. *)
  Definition overran (c : ncfg V) : Prop := exists w, overrun (flatten (vecs c w)).
  (** From [c] to [c'] without new calls; closures answer what [say] says. *)
  Inductive nrun (say : ncfg V -> nat -> option (ans V)) (c : ncfg V) : ncfg V -> Prop :=
  | nrun_start : nrun say c c
  | nrun_step c1 w t c2 : nrun say c c1 -> nstep E c1 w (NLStep t) = NNext c2 -> nrun say c c2
  | nrun_answer c1 w t c2 : nrun say c c1 -> nstep E c1 w (NLAns t (say c1 t)) = NNext c2 -> nrun say c c2.
End Net.
