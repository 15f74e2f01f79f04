(** * C20, C21: who waits for whom, and when calls end.

    A call that busy-waits repeats an access until it sees what it waits for; a round of a busy-wait is
    a step that leaves the configuration as it is. *)

From Coq Require Import List Arith Bool Lia.
From Verif.Model Require Import Prog Mem Deps State Elem Vec Excl Machine.
From Verif Require Import Client Spec.
From Verif.Logic Require Import Inv WP Post Specs Ops Sound Shape Clients Hist Locks Facts Complete Trace Stuck Progress.
From Verif.Properties Require Import Examples.
Import ListNotations.

(** The next step of thread [t] is a round of a busy-wait. *)
Definition waits {V} (E : env V) (c : cfg V) (t : nat) : Prop := step E c (LStep t) = Next c.
(** Thread [t] can make a step that is not. *)
Definition goes_on {V} (E : env V) (c : cfg V) (t : nat) : Prop := exists c', step E c (LStep t) = Next c' /\ c' <> c.
(** The continuations of [c] in which thread [u] makes no step (others may start calls and make steps). *)
Definition reach_without {V} (E : env V) (n0 : nat) (u : nat) (c c' : cfg V) : Prop :=
  reach E (fun c l => client E false false n0 c l /\ l <> LStep u) c c'.

Section Progress.
  Context {V : Type} (E : env V) (l0 : list V) (c0 m0 : nat) (c : cfg V).
  Hypothesis X : execution E false false l0 c0 m0 c.
  Notation h := (hist c).
  Notation a := (replay (abs0 l0 m0) (hist c)).

  (** C20: a call that waits, waits (a) for an element that a running call of another thread uses, or
      (b) for room at positions beyond the capacity while the first position beyond the capacity is
      reserved by a running growth call of another thread, or (c) was abandoned by a growth call that
      panicked, or (d) it is [swap(i,i)]. *)
  Theorem C20 t : waits E c t -> exists id o, open h id t o /\
    ((exists i id' t' o', touches o i /\ t' <> t /\ open h id' t' o' /\ touches o' i) \/
     (grows o = true /\ exists b, In (AcAdd b (request o)) (accs id h) /\ cap (sh c) < b /\
        exists id' t' o', t' <> t /\ open h id' t' o' /\ grows o' = true /\ a_pos a (cap (sh c)) = Reserved id') \/
     (grows o = true /\ exists b, In (AcAdd b (request o)) (accs id h) /\ cap (sh c) < b /\ a_pos a (cap (sh c)) = Abandoned) \/
     (self_swap o = true /\ hspin E = true)).
  Proof.
    intros S. destruct (waiting_for E false false l0 c0 m0 c t X S) as (x & snap & g & W & Lk & Q).
    pose proof (w_gi _ _ _ _ _ _ _ _ W) as G. destruct (gi_run _ _ _ _ _ _ _ _ G t x Lk) as [O _].
    exists (c_id x), (c_op x). split; [exact O|].
    destruct Q as [(u & z & N & Lu & _ & _ & Q)|[(Ss & Wh & _)|(Gr & b & H1 & H2 & H3)]].
    - destruct (gi_run _ _ _ _ _ _ _ _ G u z Lu) as [Ou _]. destruct Q as [(i & _ & _ & Q1 & Q2)|(Gr & b & H1 & H2 & H3 & H4)].
      + left. exists i, (c_id z), u, (c_op z). auto.
      + right. left. split; [assumption|]. exists b. split; [assumption|]. split; [assumption|]. exists (c_id z), u, (c_op z). auto.
    - right. right. right. split; [assumption|]. unfold waits_holding in Wh. now apply andb_true_iff in Wh.
    - right. right. left. eauto.
  Qed.

  (** In cases (a) and (b) the call waits forever if the other thread makes no step, whatever the rest
      of the threads do: a stalled thread blocks others. *)
  Theorem C20_stalled t id o : waits E c t -> open h id t o -> self_swap o && hspin E = false ->
    (grows o = false \/ a_pos a (cap (sh c)) <> Abandoned) ->
    exists u id' o', u <> t /\ open h id' u o' /\ forall c', reach_without E (length l0) u c c' -> open (hist c') id t o.
  Proof.
    intros S O Ns Na. destruct (waiting_for E false false l0 c0 m0 c t X S) as (x & snap & g & W & Lk & Q).
    pose proof (w_gi _ _ _ _ _ _ _ _ W) as G. destruct (gi_run _ _ _ _ _ _ _ _ G t x Lk) as [Ox _].
    assert (I : c_id x = id /\ c_op x = o).
    { destruct (gi_open _ _ _ _ _ _ _ _ G id t o O) as (x' & Lx & Hx). rewrite Lk in Lx. injection Lx as <-. split; [assumption|].
      destruct Ox as [Ox _], O as [O _]. rewrite Hx in Ox. congruence. }
    destruct I as [<- <-].
    destruct Q as [(u & z & N & Lu & Hu & _ & Q)|[(Ss & Wh & _)|(Gr & b & H1 & H2 & H3)]].
    - destruct (gi_run _ _ _ _ _ _ _ _ G u z Lu) as [Ou _]. exists u, (c_id z), (c_op z). split; [assumption|]. split; [assumption|].
      intros c' R. destruct (held_up_forever E false false l0 c0 m0 c snap g c' t x u z X W (not_eq_sym N) Lk Lu Hu R) as (X' & Lk' & _).
      destruct (execution_world _ _ _ _ _ _ c' X') as (snap' & g' & W').
      apply (gi_run _ _ _ _ _ _ _ _ (w_gi _ _ _ _ _ _ _ _ W') t x Lk').
    - unfold waits_holding in Wh. apply andb_true_iff in Wh. destruct Wh as [_ Wh]. rewrite Ss, Wh in Ns. discriminate.
    - destruct Na as [Na|Na]; [congruence|contradiction].
  Qed.

  (** C21: a call that is alone in the vector ends: thread [t] reaches the end of its call by its own
      steps. *)
  Theorem C21_alone t id o : open h id t o -> (forall id' t' o', open h id' t' o' -> id' = id) ->
    self_swap o && hspin E = false -> grows o = false \/ ~ overrun h ->
    exists n c', runs E c (repeat (LStep t) n) = Next c' /\ at_rest (hist c').
  Proof.
    intros O On Ns Gp. destruct (execution_world _ _ _ _ _ _ c X) as (snap & g & W). pose proof (w_gi _ _ _ _ _ _ _ _ W) as G.
    destruct (gi_open _ _ _ _ _ _ _ _ G id t o O) as (x & Lk & Hx).
    destruct (gi_run _ _ _ _ _ _ _ _ G t x Lk) as [Ox _].
    assert (Eo : c_op x = o) by (destruct Ox as [Ox _], O as [O _]; rewrite Hx in Ox; congruence). rewrite <- Eo in Ns, Gp.
    assert (One : forall u z, lookup u (run c) = Some z -> u = t).
    { intros u z Lu. destruct (gi_run _ _ _ _ _ _ _ _ G u z Lu) as [Ou _]. pose proof (On _ _ _ Ou) as I. rewrite <- Hx in I.
      now destruct (same_call _ _ _ _ _ _ _ _ t x u z G Lk Lu I). }
    destruct (alone_ends E false false l0 c0 m0 c t x X Lk One Ns Gp) as (n & c' & R & X' & L').
    exists n, c'. split; [assumption|]. apply (run_rest E false false l0 c0 m0 c' X').
    assert (K : forall n c c', runs E c (repeat (LStep t) n) = Next c' -> (forall u z, lookup u (run c) = Some z -> u = t) ->
              execution E false false l0 c0 m0 c -> forall u z, lookup u (run c') = Some z -> u = t).
    { clear. induction n as [|n IH]; intros c c' R One X u z; simpl in R.
      - injection R as <-. apply One.
      - destruct (step_thread E t c) as [d|f|] eqn:S; try discriminate. change (step E c (LStep t) = Next d) in S.
        assert (Xd : execution E false false l0 c0 m0 d) by (eapply (execution_step E false false l0 c0 m0 c (LStep t)); eauto; exact Logic.I).
        apply (IH d c' R); [|assumption]. intros w y Lw. destruct (Nat.eq_dec w t) as [|N]; [assumption|].
        assert (Lk : exists x, lookup t (run c) = Some x).
        { simpl in S. unfold step_thread in S. destruct (lookup t (run c)); [eauto|discriminate]. }
        destruct Lk as (x & Lk). destruct (move_or_wait E false false l0 c0 m0 c t x X Lk) as [S'|(d' & S' & Ne)].
        + assert (d = c) by congruence. subst d. eapply One; eauto.
        + assert (d' = d) by congruence. subst d'. destruct (execution_world _ _ _ _ _ _ c X) as (snap & g & W).
          destruct (move_inv E c t x d (gi_nodup _ _ _ _ _ _ _ _ (w_gi _ _ _ _ _ _ _ _ W)) Lk S Ne) as [K1 _].
          rewrite K1 in Lw by assumption. eapply One; eauto. }
    destruct (run c') as [|[u z] r] eqn:R'; [reflexivity|]. exfalso.
    assert (Lu : lookup u (run c') = Some z) by (rewrite R'; simpl; now rewrite Nat.eqb_refl).
    pose proof (K n c c' R One X u z Lu) as Q. subst u. simpl in L'. rewrite Nat.eqb_refl in L'. discriminate.
  Qed.
End Progress.

Section NoSwap.
  (** [nl = true]: the threads do not call [swap] (unless its handles do not wait, [hspin E = false]) *)
  Context {V : Type} (E : env V) (l0 : list V) (c0 m0 : nat) (c : cfg V).
  Hypothesis X : execution E false true l0 c0 m0 c.
  Notation h := (hist c).

  (** C21: as long as some call is running, some thread can go on; ... *)
  Theorem C21_progress id t o : ~ overrun h -> open h id t o -> exists u id' o', open h id' u o' /\ goes_on E c u.
  Proof.
    intros N O. destruct (execution_world _ _ _ _ _ _ c X) as (snap & g & W). pose proof (w_gi _ _ _ _ _ _ _ _ W) as G.
    destruct (gi_open _ _ _ _ _ _ _ _ G id t o O) as (x & Lk & _).
    destruct (someone_moves E false true l0 c0 m0 c t x X eq_refl Lk N) as (u & z & Lu & M).
    destruct (gi_run _ _ _ _ _ _ _ _ G u z Lu) as [Ou _]. exists u, (c_id z), (c_op z). split; assumption.
  Qed.
  (** ... and all running calls can end: the execution can be continued, without further calls, until
      no call is running, or some growth call panics without having made room. *)
  Theorem C21_all_end : ~ overrun h -> exists c' h', execution E false true l0 c0 m0 c' /\
    reach E (client E false true (length l0)) c c' /\ hist c' = h ++ h' /\
    (forall id t o, ~ In (EInv id t o) h') /\ (at_rest (hist c') \/ overrun (hist c')).
  Proof.
    intros N. destruct (all_end E false true l0 c0 m0 c X eq_refl N) as (c' & X' & (R & h' & Hh & F) & Q).
    exists c', h'. split; [assumption|]. split; [assumption|]. split; [assumption|]. split.
    - intros id t o Hin. exact (F _ Hin).
    - destruct Q as [Q|Q]; [left|right; assumption]. now apply (run_rest E false true l0 c0 m0 c' X').
  Qed.
End NoSwap.

(** ** Examples *)
Definition staysb {V} (E : env V) (c : cfg V) (t : nat) : bool :=
  match lookup t (run c) with
  | Some x => match c_prog x with
              | Spin a again _ => match exec E t a (sh c) with Done y _ _ => again y | Bad _ => false end
              | _ => false
              end
  | None => false
  end.
Lemma staysb_waits {V} (E : env V) c t : staysb E c t = true -> waits E c t.
Proof.
  unfold staysb, waits. simpl. unfold step_thread. destruct (lookup t (run c)) as [x|]; [|discriminate].
  destruct (c_prog x); try discriminate. destruct (exec E t a (sh c)); [|discriminate]. now intros ->.
Qed.

(** C20: the vector is not lock-free (not even obstruction-free).  A thread that stops in the middle of
    [get_cloned] blocks a [set] of the same element: the execution [lf1] has a running call of [set] that
    does not end in any continuation in which the other thread makes no step. *)
Definition lf1 := final [5] (calls 0 (OGet 0) ++ begin 1 (OGetCloned 0) 4 ++ begin 2 (OElem 0 (ESet 9)) 5).
Theorem C20_lock_free_refuted : execution ex false false [5] 2 8 lf1 /\
  exists u id, u <> 2 /\ open (hist lf1) id 2 (OElem 0 (ESet 9)) /\
    forall c', reach_without ex 1 u lf1 c' -> open (hist c') id 2 (OElem 0 (ESet 9)).
Proof.
  assert (X : execution ex false false [5] 2 8 lf1) by (apply ex_final; vm_compute; reflexivity).
  split; [exact X|].
  assert (O : open (hist lf1) 9 2 (OElem 0 (ESet 9))) by (split; vm_compute; reflexivity).
  destruct (C20_stalled ex [5] 2 8 lf1 X 2 9 _ (staysb_waits ex lf1 2 ltac:(vm_compute; reflexivity)) O eq_refl (or_introl eq_refl)) as (u & id' & o' & N & _ & F).
  exists u, 9. auto.
Qed.

(** A thread that stops in [push], after it got the first position beyond the capacity, blocks every
    later [push]. *)
Definition lf2 := final [5] (calls 0 (OPush 6) ++ begin 1 (OPush 7) 1 ++ begin 2 (OPush 8) 5).
Theorem C20_push_lock_free_refuted : execution ex false false [5] 2 8 lf2 /\
  exists u id, u <> 2 /\ open (hist lf2) id 2 (OPush 8) /\
    forall c', reach_without ex 1 u lf2 c' -> open (hist c') id 2 (OPush 8).
Proof.
  assert (X : execution ex false false [5] 2 8 lf2) by (apply ex_final; vm_compute; reflexivity).
  split; [exact X|].
  assert (O : open (hist lf2) 7 2 (OPush 8)) by (split; vm_compute; reflexivity).
  destruct (C20_stalled ex [5] 2 8 lf2 X 2 7 _ (staysb_waits ex lf2 2 ltac:(vm_compute; reflexivity)) O eq_refl) as (u & id' & o' & N & _ & F).
  { right. vm_compute. discriminate. }
  exists u, 7. auto.
Qed.

(** The other two cases of C20 occur: an abandoned position at the capacity, and [swap(0,0)]. *)
Definition lf3 := final [5] (calls 0 (OPush 6) ++ calls 1 (OPushFor (fun _ => None)) ++ begin 2 (OPush 8) 5).
Example C20_abandoned : execution ex false false [5] 2 8 lf3 /\ waits ex lf3 2 /\
  a_pos (replay (abs0 [5] 8) (hist lf3)) (cap (sh lf3)) = Abandoned.
Proof.
  split; [apply ex_final; vm_compute; reflexivity|]. split; [apply staysb_waits; vm_compute; reflexivity|]. vm_compute. reflexivity.
Qed.
Definition lf4 := final [5] (calls 0 OLen ++ begin 2 (OSwap 0 0) 20).
Example C20_self : execution ex false false [5] 2 8 lf4 /\ waits ex lf4 2.
Proof. split; [apply ex_final; vm_compute; reflexivity|]. apply staysb_waits; vm_compute; reflexivity. Qed.

(** C21: a call that runs alone, after a growth call that made room and panicked. *)
Definition al := final [5] (calls 0 (OExtendN [Some 6] 2) ++ begin 1 (OPush 7) 3).
Example C21_alone_example : execution ex false false [5] 2 8 al /\ panicked (hist al) 0 4 (OExtendN [Some 6] 2) PShortIter /\
  open (hist al) 5 1 (OPush 7) /\ ~ overrun (hist al).
Proof.
  split; [apply ex_final; vm_compute; reflexivity|]. split; [exists 0; split; vm_compute; reflexivity|]. split; [split; vm_compute; reflexivity|].
  apply overb_not. vm_compute. reflexivity.
Qed.
(** Without [swap]: two running calls that touch the same element, one of which waits. *)
Definition ns_script : list (item nat) := calls 0 (OGet 0) ++ begin 1 (OGetCloned 0) 4 ++ begin 2 (OElem 0 (ESet 9)) 5.
Example C21_progress_example : exists c, execution ex false true [5] 2 8 c /\ waits ex c 2 /\
  open (hist c) 9 2 (OElem 0 (ESet 9)) /\ ~ overrun (hist c).
Proof.
  destruct (ex_play false true [5] ns_script) as [c|] eqn:P; [|vm_compute in P; discriminate]. exists c.
  split; [apply (ex_execution false true [5] ns_script c); [simpl; lia|exact P]|].
  assert (Q : match ex_play false true [5] ns_script with Some c => staysb ex c 2 && negb (existsb is_pan (hist c)) | None => false end = true) by (vm_compute; reflexivity).
  rewrite P in Q. apply andb_true_iff in Q. destruct Q as [Q1 Q2]. split; [now apply staysb_waits|]. split.
  - assert (R : match ex_play false true [5] ns_script with Some c => hist c | None => [] end =
               [EInv 0 0 (OGet 0); EAcc 0 0 (AcCap 2); EAcc 0 0 (AcResv 1); EAcc 0 0 (AcCap 2); ERet 0 0 (ROptElem (Some 0)); EInv 5 1 (OGetCloned 0);
                EAcc 5 1 (AcResv 1); EAcc 5 1 (AcCap 2); EAcc 5 1 (AcCap 2); EInv 9 2 (OElem 0 (ESet 9))]) by (vm_compute; reflexivity).
    rewrite P in R. rewrite R. split; reflexivity.
  - apply no_over. now apply negb_true_iff in Q2.
Qed.

Print Assumptions C20.
Print Assumptions C20_stalled.
Print Assumptions C20_lock_free_refuted.
Print Assumptions C20_push_lock_free_refuted.
Print Assumptions C21_alone.
Print Assumptions C21_progress.
Print Assumptions C21_all_end.
