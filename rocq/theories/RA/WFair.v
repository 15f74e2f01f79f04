(** * Vocabulary of the progress statements for the view machine. *)

From Coq Require Import List Arith Bool.
From Verif.Model Require Import Prog Mem Deps State Elem Vec Excl Machine.
From Verif Require Import Client.
From Verif.RA Require Import Weak.
Import ListNotations.

Section Fair.
  Context {V : Type} (E : env V).
  Implicit Types (c : wcfg V) (P : wcfg V -> wlabel V -> Prop).

  (** The newest message that the next access of thread [t] can read. *)
  Definition front c (t : nat) : nat :=
    match wlookup t (w_run c) with
    | Some x => match wc_prog x with
                | Act a _ | Spin a _ _ => newest a (w_mem c)
                | _ => 0
                end
    | None => 0
    end.
  (** The next step of thread [t] is a round of a busy-wait, although it reads the newest message. *)
  Definition waits c (t : nat) : Prop := wstep E c (WStep t (front c t)) = WNext c.
  (** It is not. *)
  Definition goes_on c (t : nat) : Prop := exists c', wstep E c (WStep t (front c t)) = WNext c' /\ c' <> c.

  (** Thread [t] is inside call [id] of method [o]. *)
  Definition inside c (t id : nat) (o : op V) : Prop := exists x, wlookup t (w_run c) = Some x /\ wc_id x = id /\ wc_op x = o.
  (** Call [id] is not running. *)
  Definition over c (id : nat) : Prop := forall t x, wlookup t (w_run c) = Some x -> wc_id x <> id.
  (** Since the last [clear] no growth call panicked without room having been made for its positions. *)
  Definition no_overrun c : Prop := forall id o m, In (id, o, m) (w_panics c) -> ~ overran o m.
  (** Call [id] reserved the positions from [b] to [b+n-1]. *)
  Definition reserved c (id b n : nat) : Prop :=
    exists k m m', nth_error (m_resv (w_mem c)) k = Some m /\ nth_error (m_resv (w_mem c)) (S k) = Some m' /\
      mval m = b /\ mval m' = b + n /\ mby m' = id.
  (** The newest state of the element at position [i]. *)
  Definition state c (i : nat) : st :=
    match nth_error (ws (m_slots (w_mem c) i)) (last_ts (ws (m_slots (w_mem c) i))) with Some m => mval m | None => NONE end.
  (** The newest capacity. *)
  Definition capacity c : nat := latest (m_cap (w_mem c)).

  (** Endless executions: [cs n] is the configuration after [n] ticks, [ls n] the label of tick [n]; in a
      tick with [None] nothing happens. *)
  Definition tick P c (l : option (wlabel V)) c' : Prop :=
    match l with
    | None => c' = c
    | Some l => P c l /\ wstep E c l = WNext c'
    end.
  Definition endless P (cs : nat -> wcfg V) (ls : nat -> option (wlabel V)) : Prop :=
    forall n, tick P (cs n) (ls n) (cs (S n)).
  (** A thread that is inside a call makes, at some later time, a step in which it reads the newest
      message (which may be a round of a busy-wait): threads do not stop inside calls, and stores become
      visible some time.  The steps in between may read any messages. *)
  Definition fair (cs : nat -> wcfg V) (ls : nat -> option (wlabel V)) : Prop :=
    forall n t x, wlookup t (w_run (cs n)) = Some x -> exists m, n <= m /\ ls m = Some (WStep t (front (cs m) t)).

  (** Finite executions with their labels, and the number of steps of thread [t] among them. *)
  Fixpoint path P c (ls : list (wlabel V)) c' : Prop :=
    match ls with
    | [] => c' = c
    | l :: ls' => P c l /\ exists d, wstep E c l = WNext d /\ path P d ls' c'
    end.
  Definition steps_of (t : nat) (ls : list (wlabel V)) : nat :=
    length (filter (fun l => match l with WStep u _ => u =? t | _ => false end) ls).

  (** Executions in which [k] steps of thread [t] are not rounds of a busy-wait. *)
  Inductive work P (t : nat) : wcfg V -> nat -> wcfg V -> Prop :=
  | work_start c : work P t c 0 c
  | work_other c l d k c' : P c l -> wstep E c l = WNext d -> (forall j, l <> WStep t j) \/ d = c -> work P t d k c' -> work P t c k c'
  | work_own c j d k c' : P c (WStep t j) -> wstep E c (WStep t j) = WNext d -> d <> c -> work P t d k c' -> work P t c (S k) c'.
End Fair.
