(** * Vocabulary of the liveness statements: endless executions and fairness. *)

From Coq Require Import List Arith Bool.
From Verif.Model Require Import Prog Mem Deps State Elem Vec Excl Machine.
From Verif Require Import Client Spec.
Import ListNotations.

Section Fair.
  Context {V : Type} (E : env V).

  (** An endless execution: [cs n] is the configuration after [n] ticks, [ls n] the label of tick [n];
      in a tick with [None] nothing happens. *)
  Definition tick (P : cfg V -> label V -> Prop) (c : cfg V) (l : option (label V)) (c' : cfg V) : Prop :=
    match l with
    | None => c' = c
    | Some l => P c l /\ step E c l = Next c'
    end.
  Definition endless (P : cfg V -> label V -> Prop) (cs : nat -> cfg V) (ls : nat -> option (label V)) : Prop :=
    forall n, tick P (cs n) (ls n) (cs (S n)).

  (** A thread that is inside a call makes a further step at some later time (which may be a round of a
      busy-wait). *)
  Definition fair (cs : nat -> cfg V) (ls : nat -> option (label V)) : Prop :=
    forall n id t o, open (hist (cs n)) id t o -> exists m, n <= m /\ ls m = Some (LStep t).

  (** Call [id] has ended. *)
  Definition ended (h : list (event V)) (id : nat) : Prop := exists e, In e h /\ is_end id e = true.

  (** Finite executions with their labels, and the number of steps of thread [t] among them. *)
  Fixpoint path (P : cfg V -> label V -> Prop) (c : cfg V) (ls : list (label V)) (c' : cfg V) : Prop :=
    match ls with
    | [] => c' = c
    | l :: ls' => P c l /\ exists d, step E c l = Next d /\ path P d ls' c'
    end.
  Definition steps_of (t : nat) (ls : list (label V)) : nat :=
    length (filter (fun l => match l with LStep u => u =? t | _ => false end) ls).

  (** Executions in which [k] steps of thread [t] are not rounds of a busy-wait. *)
  Inductive work (P : cfg V -> label V -> Prop) (t : nat) : cfg V -> nat -> cfg V -> Prop :=
  | work_start c : work P t c 0 c
  | work_other c l d k c' : P c l -> step E c l = Next d -> l <> LStep t \/ d = c -> work P t d k c' -> work P t c k c'
  | work_own c d k c' : P c (LStep t) -> step E c (LStep t) = Next d -> d <> c -> work P t d k c' -> work P t c (S k) c'.

  (** How many steps other than rounds of a busy-wait a call of [o] makes at most, when the maximum
      capacity is [m]. *)
  Definition cost (o : op V) (m : nat) : nat :=
    match o with
    | OPush _ | OPushFor _ | OExtend _ _ | OExtendFor _ _ | OExtendN _ _ => 3 * request o + 6
    | OChunks _ => (m + 1) * (m + 5) + 1
    | OSl x _ => 4 * sl_len x + 2 * m + 21
    | _ => 6 * m + 21
    end.
End Fair.
