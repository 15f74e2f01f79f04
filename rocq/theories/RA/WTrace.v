(** * The history of an execution of the view machine.

    As in [Model/Machine.v], a history is the list of the events of an execution, oldest first: calls,
    their ends, and the accesses that hand out positions and read, write, exchange or give a value.
    The loads of counters, states and capacities are not part of it: in this memory model they may
    return old values. *)

From Coq Require Import List Arith Bool.
From Verif.Model Require Import Prog Mem Deps State Elem Vec Excl Machine.
From Verif Require Import Client.
From Verif.RA Require Import Weak.
Import ListNotations.

Section Trace.
  Context {V : Type} (E : env V).

  (** What access [a], answered by [y] in memory [M], adds to the history. *)
  Definition wlog (M : wmem V) (a : act V) : res a -> list (acc V) :=
    match a return res a -> list (acc V) with
    | AddResv n _ => fun b => [AcAdd b n]
    | RdEnd i => fun v => [AcRead i v]
    | WrEnd i f => fun v => [AcWrite i v (f v)]
    | SwapEnd i j => fun _ => match wv (m_slots M i), wv (m_slots M j) with
                              | Some v, Some w => [AcSwap i j v w]
                              | _, _ => []
                              end
    | InitEnd i v => fun _ => [AcInit i v]
    | _ => fun _ => []
    end.

  (** The events of step [l] from [c]; [n] is the number of events so far, [cur t] the running call of [t]:
      the position of its first event, as in [Spec.v]. *)
  Definition wevents (n : nat) (cur : nat -> nat) (c : wcfg V) (l : wlabel V) : list (event V) :=
    match l with
    | WInv t o _ => [EInv n t o]
    | WStep t k =>
        match wlookup t (w_run c) with
        | None => []
        | Some x =>
            match wc_prog x with
            | Ret r => [ERet (cur t) t r]
            | Pan m => [EPan (cur t) t m]
            | Act a _ =>
                match wexec E (wc_id x) a k (w_mem c) (w_view c t) with
                | WDone y _ _ => map (EAcc (cur t) t) (wlog (w_mem c) a y)
                | _ => []
                end
            | Spin a again _ =>
                match wexec E (wc_id x) a k (w_mem c) (w_view c t) with
                | WDone y _ _ => if again y then [] else map (EAcc (cur t) t) (wlog (w_mem c) a y)
                | _ => []
                end
            end
        end
    | WSync _ _ => []
    | WClear => [EClear]
    | WReserve n => match reserve E (latest (m_cap (w_mem c))) (m_max (w_mem c)) n with Some m => [EReserve n m] | None => [] end
    end.
  Definition wcur (n : nat) (cur : nat -> nat) (l : wlabel V) : nat -> nat :=
    match l with WInv t _ _ => upd cur t n | _ => cur end.

  Inductive wtrace (ro : bool) (c0 : wcfg V) : wcfg V -> list (event V) -> (nat -> nat) -> Prop :=
  | wt_start : wtrace ro c0 c0 [] (fun _ => 0)
  | wt_step c h cur l c' : wtrace ro c0 c h cur -> wclient E ro c l -> wstep E c l = WNext c' ->
      wtrace ro c0 c' (h ++ wevents (length h) cur c l) (wcur (length h) cur l).
  (** [c] is reached from a vector with elements [l0], capacity [c0] and maximum capacity [m0], with history [h]. *)
  Definition whistory (ro : bool) (l0 : list V) (c0 m0 : nat) (c : wcfg V) (h : list (event V)) : Prop :=
    env_ok E /\ capok E c0 m0 /\ length l0 <= c0 /\ length l0 < wmod E /\ exists cur, wtrace ro (wstart l0 c0 m0) c h cur.
End Trace.
