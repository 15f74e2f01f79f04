(** * C06 - C09: the length.

    [saw_len h id r n]: call [id], which returned at event [r], is a call of [len] that returned [n], or
    of another method whose result shows that it found the length to be [n] ([iter], [iter_cloned],
    [as_slice], [clone_to_vec], [map], [split_at], [split_first], [split_last], [is_empty]). *)

From Coq Require Import List Arith Bool Lia.
From Verif.Model Require Import Prog Mem Deps State Elem Vec Excl Machine.
From Verif Require Import Client Spec.
From Verif.Logic Require Import Inv WP Post Specs Ops Sound Shape Clients Hist Locks Facts.
From Verif.Properties Require Import Examples.
Import ListNotations.

Section Length.
  Context {V : Type} (E : env V) (l0 : list V) (c0 m0 : nat) (c : cfg V).
  Hypothesis X : execution E false false l0 c0 m0 c.
  Notation h := (hist c).
  Notation a0 := (abs0 l0 m0).

  (** C06: what [len] counted has a value from then on (until a [clear]); ... *)
  Theorem C06_filled id r n i k : saw_len h id r n -> i < n -> r <= k <= length h -> epoch h k = epoch h r ->
    exists v, value (before a0 h k) i = Some v.
  Proof.
    intros (o & v & R & S) Hi Hk He. destruct (execution_expl _ _ _ _ _ _ c X) as (snap & Ex & _).
    destruct (h_returned _ _ _ _ _ _ _ Ex _ _ _ _ R) as (_ & Hr & _ & _ & P & _).
    destruct (shows_lenres E o v n _ _ _ P S) as [[_ L] _].
    destruct (h_wrtn _ _ _ _ _ _ _ Ex r i) as (w & Hw); [lia|lia|].
    destruct (h_has _ _ _ _ _ _ _ Ex r k i w) as (w' & Hw'); auto; [lia|lia|]. exists w'. unfold value. now rewrite Hw'.
  Qed.

  (** ... so has every element a method handed out a reference to; ... *)
  Theorem C06_references id r o v i k : returned h id r o v ->
    (In (GElem i) (grants v) \/ exists x, In (GSlice x) (grants v) /\ sl_a x <= i < sl_a x + sl_len x) ->
    r <= k <= length h -> epoch h k = epoch h r -> exists w, value (before a0 h k) i = Some w.
  Proof.
    intros R G Hk He. destruct (execution_expl _ _ _ _ _ _ c X) as (snap & Ex & _).
    destruct (h_returned _ _ _ _ _ _ _ Ex _ _ _ _ R) as (_ & Hr & _ & _ & _ & Gr). rewrite Forall_forall in Gr.
    assert (F : filledp (snap r) i).
    { destruct G as [G|(x & G & Hx)]; specialize (Gr _ G); simpl in Gr; [assumption|]. destruct Gr as (_ & _ & Gr). auto. }
    apply (h_filled _ _ _ _ _ _ _ Ex) in F; [|lia]. destruct F as (w & Hw).
    destruct (h_has _ _ _ _ _ _ _ Ex r k i w) as (w' & Hw'); auto; [lia|lia|]. exists w'. unfold value. now rewrite Hw'.
  Qed.

  (** ... and no call ever panics because an element has no value, or because it could not be set or
      updated, or because the storage could not grow. *)
  Theorem C06_no_panic id r o m : panicked h id r o m -> m <> PHasValue /\ m <> PSet /\ m <> PUpdate /\ m <> PGrow.
  Proof.
    intros P. destruct (execution_expl _ _ _ _ _ _ c X) as (snap & Ex & _).
    destruct (h_panicked _ _ _ _ _ _ _ Ex _ _ _ _ P) as (_ & _ & _ & _ & Q). eapply pan_kind; eauto.
  Qed.

  (** C07: a later call does not find a smaller length. *)
  Theorem C07_monotone id1 r1 n1 id2 r2 n2 : saw_len h id1 r1 n1 -> saw_len h id2 r2 n2 ->
    r1 < id2 -> epoch h id1 = epoch h id2 -> n1 <= n2.
  Proof.
    intros (o1 & v1 & R1 & S1) (o2 & v2 & R2 & S2) H He. destruct (execution_expl _ _ _ _ _ _ c X) as (snap & Ex & _).
    destruct (h_returned _ _ _ _ _ _ _ Ex _ _ _ _ R1) as (_ & Hr1 & He1 & _ & P1 & _).
    destruct (h_returned _ _ _ _ _ _ _ Ex _ _ _ _ R2) as (? & Hr2 & _ & _ & P2 & _).
    destruct (shows_lenres E _ _ _ _ _ _ P1 S1) as [[_ L1] _]. destruct (shows_lenres E _ _ _ _ _ _ P2 S2) as [[L2 _] _].
    pose proof (mo_wrtn _ _ (h_mono _ _ _ _ _ _ _ Ex r1 id2 ltac:(lia) ltac:(lia) ltac:(congruence))). lia.
  Qed.

  (** Until the vector is cleared, no call finds fewer elements than it started with. *)
  Theorem C07_initial id r n : saw_len h id r n -> epoch h id = 0 -> length l0 <= n.
  Proof.
    intros (o & v & R & S) He. destruct (execution_expl _ _ _ _ _ _ c X) as (snap & Ex & _).
    destruct (h_returned _ _ _ _ _ _ _ Ex _ _ _ _ R) as (? & Hr & _ & _ & P & _).
    destruct (shows_lenres E _ _ _ _ _ _ P S) as [[L _] _].
    pose proof (mo_wrtn _ _ (h_mono _ _ _ _ _ _ _ Ex 0 id ltac:(lia) ltac:(lia) ltac:(rewrite He; reflexivity))).
    pose proof (x_first _ _ _ _ _ _ _ Ex). lia.
  Qed.

  (** C08: the length is never more than what was asked for; ... *)
  Theorem C08_bound id r n : saw_len h id r n -> n <= requested (length l0) (firstn r h).
  Proof.
    intros (o & v & R & S). destruct (execution_expl _ _ _ _ _ _ c X) as (snap & Ex & _).
    destruct (h_returned _ _ _ _ _ _ _ Ex _ _ _ _ R) as (_ & Hr & _ & _ & P & _).
    destruct (shows_lenres E _ _ _ _ _ _ P S) as [[_ L] _].
    destruct (h_good _ _ _ _ _ _ _ Ex r ltac:(lia)) as [G A].
    pose proof (good_wrtn_resv _ _ _ G). rewrite (ag_len _ _ A) in H.
    destruct (execution_prefix _ _ _ _ _ _ c r X ltac:(lia)) as (c' & X' & Hc).
    pose proof (execution_len _ _ _ _ _ _ c' X') as L'. rewrite Hc in L'. unfold before in H. lia.
  Qed.

  Lemma shows_no_swap (o : op V) v n : shows o v n -> self_swap o = false.
  Proof. destruct o; simpl; try reflexivity; destruct v; contradiction. Qed.

  (** C09: and it is at least [m] if the positions below [m] had values when the call started and no
      other call that may lock one of them is running during the call. *)
  Theorem C09_up_to_date id r n m : saw_len h id r n ->
    (forall i, i < m -> exists v, value (before a0 h id) i = Some v) ->
    (forall i k, i < m -> id < k < r -> ~ busy h id i k) -> m <= n.
  Proof.
    intros (o & v & R & S) F B. destruct (execution_expl _ _ _ _ _ _ c X) as (snap & Ex & _).
    destruct (execution_holds _ _ _ _ _ _ c X) as (_ & _ & LE).
    destruct (h_returned _ _ _ _ _ _ _ Ex _ _ _ _ R) as (Hi & Hr & He & _ & P & _).
    destruct R as (t & R1 & R2).
    eapply (len_lower E false false l0 m0 snap h Ex LE id t o r _ n m R1 (shows_no_swap o v n S) R2); [simpl; apply Nat.eqb_refl| | |].
    - eapply shows_lenres; eauto.
    - intros i Hlt. destruct (F i Hlt) as (w & Hw). unfold value in Hw. exists w. destruct (a_pos (before a0 h id) i); simpl in Hw; congruence.
    - exact B.
  Qed.

  (** C08: ... and at rest it is exactly that: if no call was running when the call started, no growth
      call panicked, and no other call starts before it returns. *)
  Theorem C08_exact id r o v n : returned h id r o v -> shows o v n ->
    at_rest (firstn id h) -> no_growth_panic (firstn id h) ->
    (forall k, id < k < r -> forall id' t' o', nth_error h k <> Some (EInv id' t' o')) ->
    n = requested (length l0) (firstn id h).
  Proof.
    intros Rt Sh R N Alone. assert (Sn : saw_len h id r n) by (exists o, v; auto).
    pose proof (C08_bound id r n Sn) as Up. destruct (execution_expl _ _ _ _ _ _ c X) as (snap & Ex & _).
    destruct (h_returned _ _ _ _ _ _ _ Ex _ _ _ _ Rt) as (Hi & Hr & He & _ & _ & _).
    destruct Rt as (t & R1 & R2).
    assert (Rq : request o = 0) by (destruct o; simpl in *; try reflexivity; destruct v; contradiction).
    assert (Tc : forall i k, id < k < r -> ~ busy h id i k) .
    { intros i k Hk (id' & t' & o' & D & O & T). apply open_firstn in O. destruct O as (O1 & O2 & O3).
      destruct (Nat.lt_trichotomy id' id) as [L|[L|L]].
      - apply (R id' t' o'). apply firstn_open; auto. intros q e Hq. apply O3. lia.
      - contradiction.
      - apply (Alone id' ltac:(lia) id' t' o' O2). }
    destruct (execution_prefix _ _ _ _ _ _ c id X ltac:(lia)) as (c' & X' & Hc).
    assert (K : forall k, id < k -> k <= r -> requested (length l0) (firstn k h) = requested (length l0) (firstn id h)).
    { intros k Hk. induction Hk as [|k Hk IH]; intros L.
      - rewrite (firstn_S h id _ R1), requested_snoc. lia.
      - destruct (nth_error h k) as [e|] eqn:Hn; [|apply nth_error_None in Hn; lia].
        rewrite (firstn_S h k e Hn), requested_snoc. rewrite <- IH by lia.
        destruct e as [id' t' o'| | | | |]; try reflexivity.
        + exfalso. apply (Alone k ltac:(lia) id' t' o' Hn).
        + exfalso. apply (epoch_clear h id r k He); [lia|assumption]. }
    rewrite (K r Hi ltac:(lia)) in Up.
    apply Nat.le_antisymm; [assumption|]. apply (C09_up_to_date id r n _ Sn).
    - intros i Hi'. rewrite <- Hc in R, N, Hi'. rewrite <- (rest_len _ _ _ _ _ _ c' X' R) in Hi'.
      destruct (rest_full _ _ _ _ _ _ c' i X' R N Hi') as (w & Hw). exists w. unfold before, value. rewrite <- Hc, Hw. reflexivity.
    - intros i k _. apply Tc.
  Qed.

  (** C14: [get(i)] gives the element and [vec[i]] does not panic under the conditions of C09. *)
  Lemma available id t o r e n i : nth_error h id = Some (EInv id t o) -> self_swap o = false ->
    nth_error h r = Some e -> is_end id e = true ->
    (exists snap, explained E false false l0 m0 snap h /\ lenres n (accs id (firstn r h)) (snap id) (snap r)) ->
    (forall j, j <= i -> exists v, value (before a0 h id) j = Some v) ->
    (forall j k, j <= i -> id < k < r -> ~ busy h id j k) -> i < n.
  Proof.
    intros Hid Ns Hr He (snap & Ex & L) F B. destruct (execution_holds _ _ _ _ _ _ c X) as (_ & _ & LE).
    apply (len_lower E false false l0 m0 snap h Ex LE id t o r e n (S i) Hid Ns Hr He L).
    - intros j Hj. destruct (F j ltac:(lia)) as (w & Hw). unfold value in Hw. exists w. destruct (a_pos (before a0 h id) j); simpl in Hw; congruence.
    - intros j k Hj. apply B. lia.
  Qed.
  Theorem C14_get id r i v : returned h id r (OGet i) v ->
    (forall j, j <= i -> exists v, value (before a0 h id) j = Some v) ->
    (forall j k, j <= i -> id < k < r -> ~ busy h id j k) -> v = ROptElem (Some i).
  Proof.
    intros R F B. destruct (execution_expl _ _ _ _ _ _ c X) as (snap & Ex & _).
    destruct (h_returned _ _ _ _ _ _ _ Ex _ _ _ _ R) as (_ & _ & _ & _ & P & _). destruct P as (n & -> & _ & L).
    destruct R as (t & R1 & R2). pose proof (available id t _ r _ n i R1 eq_refl R2 (Nat.eqb_refl id)) as A.
    destruct (Nat.ltb_spec i n); [reflexivity|]. exfalso. specialize (A ltac:(eauto) F B). lia.
  Qed.
  Theorem C14_index id r i m : panicked h id r (OIndex i) m ->
    (forall j, j <= i -> exists v, value (before a0 h id) j = Some v) ->
    ~ (forall j k, j <= i -> id < k < r -> ~ busy h id j k).
  Proof.
    intros R F B. destruct (execution_expl _ _ _ _ _ _ c X) as (snap & Ex & _).
    destruct (h_panicked _ _ _ _ _ _ _ Ex _ _ _ _ R) as (_ & _ & _ & _ & P). destruct P as (_ & _ & n & L & Hn).
    destruct R as (t & R1 & R2). pose proof (available id t _ r _ n i R1 eq_refl R2 (Nat.eqb_refl id) ltac:(eauto) F B). lia.
  Qed.
End Length.

(** A push is stalled while [len] runs; later everything is pushed. *)
Definition length_script : list (item nat) :=
  begin 0 (OPush 7) 2 ++ calls 1 OLen ++ [Fin 0] ++ calls 1 (OPush 8) ++ calls 2 OIter ++ calls 0 OLen ++ calls 0 (OGet 2).
Notation ls := (final [5] length_script).
Lemma length_execution : execution ex false false [5] 2 8 ls.
Proof. apply ex_final. vm_compute. reflexivity. Qed.
Example length_example : saw_len (hist ls) 2 6 1 /\ saw_len (hist ls) 15 20 3 /\ saw_len (hist ls) 21 24 3 /\
  epoch (hist ls) 2 = epoch (hist ls) 21 /\ requested 1 (firstn 6 (hist ls)) = 2.
Proof.
  split; [exists OLen, (RNat 1); split; [exists 1; split|]; vm_compute; reflexivity|].
  split; [exists OIter, (RElems [0; 1; 2]); split; [exists 2; split|]; vm_compute; reflexivity|].
  split; [exists OLen, (RNat 3); split; [exists 0; split|]; vm_compute; reflexivity|].
  split; vm_compute; reflexivity.
Qed.
Example length_example_rest : at_rest (firstn 21 (hist ls)) /\ no_growth_panic (firstn 21 (hist ls)) /\
  (forall k, 21 < k < 24 -> forall id t o, nth_error (hist ls) k <> Some (EInv id t o)) /\
  returned (hist ls) 21 24 OLen (RNat 3) /\ requested 1 (firstn 21 (hist ls)) = 3.
Proof.
  split; [apply rest_by; vm_compute; reflexivity|]. split; [apply no_panics; vm_compute; reflexivity|].
  split; [apply no_calls; vm_compute; reflexivity|]. split; [exists 0; split; vm_compute; reflexivity|vm_compute; reflexivity].
Qed.
(** the hypotheses of C09 and C14 *)
Lemma quiet_if {V} (h : list (event V)) id r :
  at_rest (firstn id h) ->
  (forall k, id < k < r -> forall id' t o, nth_error h k <> Some (EInv id' t o)) ->
  forall i k, id < k < r -> ~ busy h id i k.
Proof.
  intros R N i k Hk (id' & t' & o' & D & O & Tc). apply open_firstn in O. destruct O as (O1 & O2 & O3).
  destruct (Nat.lt_trichotomy id' id) as [L|[L|L]].
  - apply (R id' t' o'). apply firstn_open; auto. intros q e Hq. apply O3. lia.
  - contradiction.
  - apply (N id' ltac:(lia) id' t' o' O2).
Qed.
Example length_example_quiet :
  returned (hist ls) 25 29 (OGet 2) (ROptElem (Some 2)) /\
  (forall j, j <= 2 -> exists v, value (before (abs0 [5] 8) (hist ls) 25) j = Some v) /\
  (forall j k, j <= 2 -> 25 < k < 29 -> ~ busy (hist ls) 25 j k).
Proof.
  split; [exists 0; split; vm_compute; reflexivity|]. split.
  - intros [|[|[|j]]] H; try lia; eexists; vm_compute; reflexivity.
  - intros j k _. apply quiet_if.
    + apply rest_by; vm_compute; reflexivity.
    + apply no_calls; vm_compute; reflexivity.
Qed.

(** C09 does not hold without the condition on concurrent calls: while a thread reads an element,
    [len] may miss it and everything after it. *)
Theorem C09_refuted : exists c id r p q,
  execution ex false false [] 2 8 c /\ grew (hist c) p q 0 1 /\ q < id /\
  returned (hist c) id r OLen (RNat 0).
Proof.
  set (s := calls 0 (OPush 7) ++ begin 1 (OGetCloned 0) 5 ++ calls 2 OLen ++ [Fin 1]).
  exists (final [] s), 9, 13, 0, 4. split; [apply ex_final; vm_compute; reflexivity|].
  split; [exists (OPush 7); split; [exists 0; split; vm_compute; reflexivity|split; reflexivity]|].
  split; [lia|]. exists 2. split; vm_compute; reflexivity.
Qed.

(** C14: after a completed [push] that returned 1, [get(1)] may be [None], [vec[1]] may panic, and
    [get_cloned(1)] is not [get(1).map(|e| e.cloned())]. *)
Theorem C14_refuted : exists c p q i1 r1 i2 r2 i3 r3,
  execution ex false false [] 2 8 c /\ returned (hist c) p q (OPush 8) (RNat 1) /\ q < i1 /\ r1 < i2 /\ r2 < i3 /\
  returned (hist c) i1 r1 (OGet 1) (ROptElem None) /\
  panicked (hist c) i2 r2 (OIndex 1) POutOfBounds /\
  returned (hist c) i3 r3 (OGetCloned 1) (ROptVal (Some 8)).
Proof.
  set (s := begin 0 (OPush 7) 1 ++ calls 1 (OPush 8) ++ calls 1 (OGet 1) ++ calls 1 (OIndex 1) ++ calls 1 (OGetCloned 1)).
  exists (final [] s), 2, 6, 7, 11, 12, 16, 17, 22. split; [apply ex_final; vm_compute; reflexivity|].
  split; [exists 1; split; vm_compute; reflexivity|]. split; [lia|]. split; [lia|]. split; [lia|].
  split; [exists 1; split; vm_compute; reflexivity|]. split; exists 1; split; vm_compute; reflexivity.
Qed.

Print Assumptions C06_filled.
Print Assumptions C06_references.
Print Assumptions C06_no_panic.
Print Assumptions C07_monotone.
Print Assumptions C07_initial.
Print Assumptions C08_bound.
Print Assumptions C08_exact.
Print Assumptions C09_up_to_date.
Print Assumptions C09_refuted.
Print Assumptions C14_get.
Print Assumptions C14_index.
Print Assumptions C14_refuted.
