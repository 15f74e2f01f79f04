(** * C45: closures that call back into the vector. *)

From Coq Require Import List Arith Bool Lia.
From Verif.Model Require Import Prog Mem Deps State Elem Vec Excl Machine Reentrant.
From Verif Require Import Client Spec Seq Fair Nested.
From Verif.Logic Require Import Inv WP Post Specs Ops Sound Shape Clients Hist Facts Borrows Reentry Nesting.
From Verif.Properties Require Import Examples Linear Live.
Import ListNotations.

Section Flat.
  Context {V : Type} (E : env V) (ro nl : bool) (l0 : list V) (c0 m0 : nat) (r : rcfg V).
  Hypothesis X : rexecution E ro nl l0 c0 m0 r.

  (** Executions with closures that call back are executions without: every call made inside a closure
      can be seen as the call of a further thread ... *)
  Theorem C45_flat : exists c, execution E ro nl l0 c0 m0 c /\ hist c = flatten r /\ sh c = rsh r.
  Proof.
    destruct (simulation _ _ _ _ _ _ _ X) as [_ S]. destruct (S _ (consistent_self _)) as (c & Xc & Sm). exists c.
    split; [assumption|]. split; apply Sm.
  Qed.
  (** ... so whatever holds for the histories and states of those executions holds here. *)
  Theorem C45_transfer (P : shared V -> list (event V) -> Prop) :
    (forall c, execution E ro nl l0 c0 m0 c -> P (sh c) (hist c)) -> P (rsh r) (flatten r).
  Proof. intros H. destruct C45_flat as (c & Xc & <- & <-). auto. Qed.

  (** Nothing a closure does leads to undefined behaviour. *)
  Theorem C45_no_fault l f : rclient E ro nl (length l0) r l -> rstep E r l <> RFault f.
  Proof.
    intros C S. destruct (simulation _ _ _ _ _ _ _ X) as [R Sm]. destruct (Sm _ (consistent_self _)) as (c & Xc & Si).
    destruct (sim_fault _ _ _ _ _ _ Si S) as (l' & Fl & St). pose proof (sim_client _ _ _ _ _ _ _ _ R Si C) as Cl. rewrite Fl in Cl.
    exact (execution_no_fault _ _ _ _ _ _ _ _ _ Xc Cl St).
  Qed.

  (** Calls nest: the call around an open call does not go on (no access, no return, no panic). *)
  Theorem C45_nesting id2 id1 o k : inside (rhist r) id2 id1 o -> id2 < k -> rdone (firstn k (rhist r)) id2 = false ->
    rdone (firstn k (rhist r)) id1 = false /\ forall t d x, nth_error (rhist r) k <> Some (NAcc id1 t d x).
  Proof.
    intros Ins L D. assert (Sil := fun n e => outer_silent _ _ _ _ _ _ _ _ _ _ n e X Ins).
    split; [|intros t d x He; eapply Sil; eauto; reflexivity].
    destruct (rdone (firstn k (rhist r)) id1) eqn:Q; [exfalso|reflexivity]. unfold rdone in Q. apply existsb_exists in Q as (e & I & Re).
    apply In_nth_error in I as (n & Hn). apply firstn_old in Hn as [Ln Hn].
    assert (O : caller e = Some id1) by (destruct e; try discriminate; simpl in *; apply Nat.eqb_eq in Re as ->; reflexivity).
    destruct (Nat.lt_trichotomy n id2) as [L2|[->|L2]].
    - destruct Ins as (t & d & d2 & o2 & Ld & (_ & Dn) & _). unfold rdone in Dn.
      assert (existsb (is_rend id1) (firstn id2 (rhist r)) = true); [|congruence]. apply existsb_exists. exists e. split; [|assumption].
      apply nth_error_In with n. now rewrite firstn_nth.
    - destruct Ins as (t & d & d2 & o2 & Ld & _ & I2). rewrite Hn in I2. injection I2 as ->. discriminate.
    - refine (Sil n e L2 _ Hn O). apply (rdone_firstn _ n k); [lia|assumption].
  Qed.
End Flat.

Section Lent.
  Context {V : Type} (E : env V) (nl : bool) (l0 : list V) (c0 m0 : nat).
  Implicit Types (r : rcfg V).

  (** The value lent to a closure is accessed by nobody while the closure is inside a call: not by another
      thread, not by the calls the closure makes. *)
  Theorem C45_exclusive r id i k j t d x : rexecution E false nl l0 c0 m0 r -> has_lent (rhist r) id i -> id < k ->
    rdone (firstn k (rhist r)) id = false -> nth_error (rhist r) k = Some (NAcc j t d x) -> ~ on_elem i x.
  Proof. apply lent_exclusive. Qed.

  Lemma reads_at (vs : list V) a i : a <= i < a + length vs -> exists v, In (AcRead i v) (reads a vs).
  Proof.
    revert a. induction vs as [|v vs IH]; intros a L; simpl in *; [lia|]. destruct (Nat.eq_dec i a) as [->|]; [eauto|].
    destruct (IH (S a) ltac:(lia)) as (w & I). eauto.
  Qed.
  Lemma writes_at (vs : list (V * V)) a i : a <= i < a + length vs -> exists v w, In (AcWrite i v w) (writes a vs).
  Proof.
    revert a. induction vs as [|[v w] vs IH]; intros a L; simpl in *; [lia|]. destruct (Nat.eq_dec i a) as [->|]; [eauto|].
    destruct (IH (S a) ltac:(lia)) as (v' & w' & I). eauto.
  Qed.
  Lemma eff_sub (tr : list (acc V)) l x : eff tr = l -> In x l -> In x tr.
  Proof. intros <- H. apply filter_In in H. tauto. Qed.
  Lemma uses_returned u o i v tr sI sR : uses o i -> post E (with_answers u o) v tr sI sR -> exists x, In x tr /\ on_elem i x.
  Proof.
    intros U P. assert (Sub := fun l x => eff_sub tr l x). destruct o as [o|j|j| | | | | | | | | | | | | |]; simpl in U; try contradiction.
    - destruct o; simpl in U; try contradiction.
      + subst. simpl in P. match type of P with post_elem _ _ ?e _ _ => destruct e end; simpl in P.
        all: repeat match goal with P : exists _, _ |- _ => destruct P as (? & P) | P : _ /\ _ |- _ => destruct P as (? & P) end.
        all: eexists; (split; [eapply Sub; [eassumption|now left]|reflexivity]).
      + simpl in P. match type of P with post_slice _ _ ?e _ _ _ _ => destruct e end; try contradiction; simpl in P, U.
        * destruct P as [(_ & w & _ & P)|(L & _)]; [|lia]. destruct U as [_ ->]. eexists. split; [eapply Sub; [eassumption|now left]|reflexivity].
        * destruct P as (vs & Lv & _ & P). rewrite <- Lv in U. destruct (reads_at _ _ _ U) as (w & I). eexists. split; [eapply Sub; [eassumption|exact I]|reflexivity].
        * destruct P as (vs & Lv & _ & P). rewrite <- Lv in U. rewrite <- (map_length (fun o => (o, v0))) in U. destruct (writes_at _ _ _ U) as (w & w' & I).
          eexists. split; [eapply Sub; [eassumption|exact I]|reflexivity].
        * destruct P as (vs & Lv & _ & P). rewrite <- Lv in U. destruct (reads_at _ _ _ U) as (w & I). eexists. split; [eapply Sub; [eassumption|exact I]|reflexivity].
        * destruct P as (vs & Lv & _ & P). rewrite <- Lv in U. destruct (reads_at _ _ _ U) as (w & I). eexists. split; [eapply Sub; [eassumption|exact I]|reflexivity].
    - subst j. destruct P as (w & w' & _ & P & _). eexists. split; [eapply Sub; [eassumption|now left]|reflexivity].
    - subst j. destruct P as (w & _ & P & _). eexists. split; [eapply Sub; [eassumption|now left]|reflexivity].
  Qed.
  Lemma uses_panicked u o i m tr sI sR : uses o i -> pan E (with_answers u o) m tr sI sR -> exists x, In x tr /\ on_elem i x.
  Proof.
    intros U P. assert (Sub := fun l x => eff_sub tr l x). destruct o as [o|j|j| | | | | | | | | | | | | |]; simpl in U; try contradiction.
    - destruct o; simpl in U; try contradiction.
      + subst. simpl in P. match type of P with pan_elem _ ?e _ _ => destruct e end; simpl in P; try contradiction.
        all: repeat match goal with P : exists _, _ |- _ => destruct P as (? & P) | P : _ /\ _ |- _ => destruct P as (? & P) end.
        all: eexists; (split; [eapply Sub; [eassumption|now left]|reflexivity]).
      + simpl in P. match type of P with pan_slice _ _ ?e _ _ => destruct e end; contradiction.
    - subst j. destruct P as (_ & w & P & _). eexists. split; [eapply Sub; [eassumption|now left]|reflexivity].
    - subst j. destruct P as (_ & w & P & _). eexists. split; [eapply Sub; [eassumption|now left]|reflexivity].
  Qed.
  Lemma rdone_at (h : list (revent V)) id : rdone h id = true -> exists n e, nth_error h n = Some e /\ is_rend id e = true.
  Proof. intros H. apply existsb_exists in H as (e & I & Re). apply In_nth_error in I as (n & I). eauto. Qed.

  (** A call that ended has accessed the value. *)
  Lemma must_use r id t d o n e : rexecution E false nl l0 c0 m0 r -> nth_error (rhist r) id = Some (NInv id t d o) ->
    nth_error (rhist r) n = Some e -> is_rend id e = true -> forall i, uses o i ->
    exists k t' d' x, id < k < n /\ nth_error (rhist r) k = Some (NAcc id t' d' x) /\ on_elem i x.
  Proof.
    intros X Hi Hn Re i U. destruct (C45_flat _ _ _ _ _ _ _ X) as (c & Xc & Hh & _).
    destruct (execution_expl _ _ _ _ _ _ _ Xc) as (snap & Ex & _). rewrite Hh in Ex. unfold flatten in Ex.
    set (w := answered (answers r)) in *. set (hf := map (flat_event w) (rhist r)) in *.
    assert (Fi : nth_error hf id = Some (EInv id (agent t d) (with_answers (w id) o))) by (unfold hf; rewrite flat_nth, Hi; reflexivity).
    assert (Fn : nth_error hf n = Some (flat_event w e)) by (unfold hf; rewrite flat_nth, Hn; reflexivity).
    assert (Y : exists x, In x (accs id (firstn n hf)) /\ on_elem i x).
    { destruct e as [|j t' d' v|j t' d' m| | |]; try discriminate; simpl in Re; apply Nat.eqb_eq in Re as ->; simpl in Fn.
      - destruct (h_ret _ _ _ _ _ _ _ Ex n id _ v Fn) as (o' & A1 & A2 & A3 & A4 & A5 & A6). rewrite Fi in A2. injection A2 as _ <-. eapply uses_returned; eauto.
      - destruct (h_pan _ _ _ _ _ _ _ Ex n id _ m Fn) as (o' & A1 & A2 & A3 & A4 & A5). rewrite Fi in A2. injection A2 as _ <-. eapply uses_panicked; eauto. }
    destruct Y as (x & I & On).
    assert (Ee : is_end id (flat_event w e) = true) by (destruct e; try discriminate; exact Re).
    destruct (in_accs _ _ _ _ _ _ _ Ex _ _ _ _ I Fn Ee) as (k & tt' & Lk & Hk & _). unfold hf in Hk. rewrite flat_nth in Hk.
    destruct (nth_error (rhist r) k) as [e'|] eqn:Q; [|discriminate]. destruct e'; try discriminate. injection Hk as -> <- ->. eauto 10.
  Qed.
  (** The same for [get_cloned], unless it found no element. *)
  Lemma must_fetch r id t d o n e : rexecution E false nl l0 c0 m0 r -> nth_error (rhist r) id = Some (NInv id t d o) ->
    nth_error (rhist r) n = Some e -> is_rend id e = true -> forall i, fetches o i ->
    (exists k t' d' x, id < k < n /\ nth_error (rhist r) k = Some (NAcc id t' d' x) /\ on_elem i x) \/
    (exists k, id < k <= n /\ value (before (abs0 l0 m0) (flatten r) k) i = None).
  Proof.
    intros X Hi Hn Re i U. destruct (C45_flat _ _ _ _ _ _ _ X) as (c & Xc & Hh & _).
    destruct (execution_expl _ _ _ _ _ _ _ Xc) as (snap & Ex & _). rewrite Hh in Ex.
    set (w := answered (answers r)) in *. set (hf := flatten r) in *. assert (Qf : hf = map (flat_event w) (rhist r)) by reflexivity.
    assert (Fi : nth_error hf id = Some (EInv id (agent t d) (with_answers (w id) o))) by (rewrite Qf, flat_nth, Hi; reflexivity).
    assert (Fn : nth_error hf n = Some (flat_event w e)) by (rewrite Qf, flat_nth, Hn; reflexivity).
    assert (At : atomic (with_answers (w id) o) = true) by (destruct U; subst o; reflexivity).
    assert (Pn : forall m tr sI sR, ~ pan E (with_answers (w id) o) m tr sI sR) by (destruct U; subst o; auto).
    assert (Ps : forall v tr sI sR, post E (with_answers (w id) o) v tr sI sR -> (exists x, In (AcRead i x) tr) \/ v = ROptVal None).
    { intros v tr sI sR P. destruct U; subst o; simpl in P; (destruct P as [(x & _ & P)|(P & _)]; [left; exists x; eapply eff_sub; [exact P|now left]|auto]). }
    assert (Se : forall x m m', sem (eqv E) (with_answers (w id) o) x m m' -> x = Returns (ROptVal (m i))).
    { intros x m m' Sm. destruct U; subst o; apply Sm. }
    assert (Ee : is_end id (flat_event w e) = true) by (destruct e; try discriminate; exact Re).
    destruct e as [|j t' d' v|j t' d' m| | |]; try discriminate; simpl in Re; apply Nat.eqb_eq in Re as ->; simpl in Fn.
    - destruct (h_ret _ _ _ _ _ _ _ Ex n id _ v Fn) as (o' & A1 & A2 & A3 & A4 & A5 & A6). rewrite Fi in A2. injection A2 as At' <-.
      destruct (Ps _ _ _ _ A5) as [(x & I)| ->].
      + left. destruct (in_accs _ _ _ _ _ _ _ Ex _ _ _ _ I Fn Ee) as (k & tt' & Lk & Hk & _). rewrite Qf, flat_nth in Hk.
        destruct (nth_error (rhist r) k) as [e'|] eqn:Q; [|discriminate]. destruct e'; try discriminate. injection Hk as -> <- ->. do 4 eexists. split; [exact Lk|]. split; [exact Q|reflexivity].
      + right. assert (En : Seq.ended (hist c) id n (with_answers (w id) o) (Returns (ROptVal None))).
        { rewrite Hh. exists (agent t d). split; [assumption|]. rewrite At'. exact Fn. }
        assert (Xc' : execution E false false l0 c0 m0 c).
        { destruct Xc as (B1 & B2 & B3 & B4 & B5). repeat (split; [assumption|]). clear - B5. induction B5 as [|c l c' B5 IH C S]; [constructor|].
          econstructor; [exact IH| |exact S]. destruct l; simpl in *; auto. destruct C as [(C1 & C2 & C3 & C4) C5]. split; [|assumption].
          split; [assumption|]. split; [assumption|]. split; [assumption|]. discriminate. }
        destruct (C11_instant E l0 c0 m0 c Xc' _ _ _ _ En At) as (k & Lk & Sm & _). rewrite Hh in Sm. apply Se in Sm. exists k. split; [assumption|]. congruence.
    - destruct (h_pan _ _ _ _ _ _ _ Ex n id _ m Fn) as (o' & A1 & A2 & A3 & A4 & A5). rewrite Fi in A2. injection A2 as _ <-. now apply Pn in A5.
  Qed.

  (** Deadlock.  Every call of the set [A] needs the value of an element that was lent to a closure which is
      itself inside a call of [A]: then none of these calls ever ends, whatever happens. *)
  Definition blocked (h : list (revent V)) (A : nat -> Prop) : Prop :=
    forall id, A id -> exists t d o i id', ropen h id t d o /\ A id' /\ has_lent h id' i /\
      (uses o i \/ fetches o i /\ id' <= id) /\
      (forall k t' d' x, nth_error h k = Some (NAcc id t' d' x) -> ~ on_elem i x).
  Theorem C45_deadlock r A r' id : rexecution E false nl l0 c0 m0 r -> blocked (rhist r) A ->
    rreach E (rclient E false nl (length l0)) r r' -> A id -> rdone (rhist r') id = false.
  Proof.
    intros X B R. revert id. induction R as [|r1 l r2 R IH C S]; intros id Aid.
    - destruct (B id Aid) as (t & d & o & i & id' & (_ & D) & _). exact D.
    - destruct (rexecution_trans _ _ _ _ _ _ _ _ X R) as (X1 & (h1 & H1) & _).
      pose proof (rexecution_step _ _ _ _ _ _ _ _ _ X1 C S) as X2.
      destruct (hist_grows _ _ _ _ S) as [Hh|(e & Hh)]; [rewrite Hh; auto|].
      destruct (rdone (rhist r2) id) eqn:D; [exfalso|reflexivity]. rewrite Hh, rdone_snoc, (IH id Aid) in D. simpl in D.
      destruct (B id Aid) as (t & d & o & i & id' & (Hi & _) & Aid' & Hl & U & No).
      assert (Ext : forall k y, nth_error (rhist r) k = Some y -> nth_error (rhist r2) k = Some y).
      { intros k y Hk. rewrite Hh, H1. now do 2 apply nth_old. }
      assert (L' : id' < length (rhist r)). { destruct Hl as (id1 & o1 & (t1 & d1 & d2 & o2 & _ & _ & I) & _). apply nth_error_Some. congruence. }
      assert (Hl2 : has_lent (rhist r2) id' i).
      { destruct Hl as (id1 & o1 & (t1 & d1 & d2 & o2 & Ld & O & I) & Le).
        assert (F : firstn id' (rhist r2) = firstn id' (rhist r)).
        { rewrite Hh, H1, !firstn_app, app_length. replace (id' - length (rhist r)) with 0 by lia.
          replace (id' - (length (rhist r) + length h1)) with 0 by lia. simpl. now rewrite !app_nil_r. }
        exists id1, o1. rewrite F. split; [|assumption]. exists t1, d1, d2, o2. rewrite F. auto. }
      assert (Hn : nth_error (rhist r2) (length (rhist r1)) = Some e) by (rewrite Hh, nth_error_app2, Nat.sub_diag by lia; reflexivity).
      assert (D' : forall k, k <= length (rhist r1) -> rdone (firstn k (rhist r2)) id' = false).
      { intros k Lk. apply (rdone_firstn _ k (length (rhist r1))); [assumption|]. rewrite Hh, firstn_app, Nat.sub_diag, firstn_all. simpl. rewrite app_nil_r. auto. }
      assert (Acc : ~ exists k t' d' x, id < k < length (rhist r1) /\ nth_error (rhist r2) k = Some (NAcc id t' d' x) /\ on_elem i x).
      { intros (k & t' & d' & x & Lk & Hk & On). destruct (Nat.lt_ge_cases k (length (rhist r))) as [L|L].
        - apply (No k t' d' x); [|assumption]. rewrite Hh, H1, nth_error_app1, nth_error_app1 in Hk; [assumption|assumption|rewrite app_length; lia].
        - refine (C45_exclusive r2 id' i k id t' d' x X2 Hl2 _ _ Hk On); [lia|]. apply D'. lia. }
      destruct U as [U|[U Lid]].
      + apply Acc. eapply must_use; eauto.
      + destruct (must_fetch r2 id t d o _ e X2 (Ext _ _ Hi) Hn D i U) as [Y|(k & Lk & Vn)]; [auto|].
        assert (Hk : exists y, nth_error (rhist r2) k = Some y).
        { destruct (nth_error (rhist r2) k) eqn:Q; [eauto|]. apply nth_error_None in Q. rewrite Hh, app_length in Q. simpl in Q. lia. }
        destruct Hk as (y & Hk). destruct (prefix _ _ _ _ _ _ _ _ _ X2 Hk) as (q & lq & q2 & Xq & _ & Hq & _ & x & Aq).
        destruct (lent_value E false nl l0 c0 m0 q id' i (answered (answers r2))) as (v & Hv); [assumption|rewrite Hq; apply lent_firstn; [lia|assumption]|rewrite Hq; apply D'; lia| |].
        { pose proof (consistent_self (answers r2)) as K. rewrite Aq in K at 2. now apply consistent_app in K. }
        unfold before, flatten in Vn. rewrite firstn_map, <- Hq in Vn. congruence.
  Qed.
  (** In particular, a closure that calls for the element it was lent. *)
  Theorem C45_self_deadlock r id t d o i : rexecution E false nl l0 c0 m0 r -> nth_error (rhist r) id = Some (NInv id t d o) ->
    has_lent (rhist r) id i -> uses o i \/ fetches o i -> rdone (rhist r) id = false.
  Proof.
    intros X Hi Hl U. destruct (prefix_reach _ _ _ _ _ _ _ _ _ X Hi) as (r1 & l & r2 & X1 & C & S & H1 & H2 & R).
    pose proof (rexecution_step _ _ _ _ _ _ _ _ _ X1 C S) as X2. destruct (nest_of _ _ _ _ _ _ _ X1) as [_ N].
    assert (L : length (rhist r1) = id). { rewrite H1, firstn_length. assert (id < length (rhist r)) by (apply nth_error_Some; congruence). lia. }
    assert (F : firstn id (rhist r2) = firstn id (rhist r)) by (rewrite H2, <- H1, firstn_app, L, Nat.sub_diag; rewrite <- L at 1; rewrite firstn_all; apply app_nil_r).
    assert (I2 : nth_error (rhist r2) id = Some (NInv id t d o)) by (rewrite H2, <- L at 1; rewrite nth_error_app2, L, Nat.sub_diag by lia; reflexivity).
    apply (C45_deadlock r2 (eq id) r id X2); [|assumption|reflexivity]. intros j <-. exists t, d, o, i, id.
    split; [split; [assumption|]; rewrite H2, rdone_snoc, <- L, (ne_fresh _ N); reflexivity|]. split; [reflexivity|].
    split; [|split; [destruct U; auto|]].
    - destruct Hl as (id1 & o1 & (t1 & d1 & d2 & o2 & Ld & O & I) & Le). exists id1, o1. rewrite F. split; [|assumption].
      exists t1, d1, d2, o2. rewrite F. split; [assumption|]. split; [assumption|]. rewrite Hi in I. injection I as -> -> ->. exact I2.
    - intros k t' d' x Hk _. rewrite H2 in Hk. apply nth_new in Hk as [Hk|[_ Hk]]; [|discriminate].
      apply nth_error_In in Hk. pose proof (ne_own _ N _ id Hk eq_refl). lia.
  Qed.
End Lent.

Section WaitFree.
  Context {V : Type} (E : env V) (ro nl : bool) (l0 : list V) (c0 m0 : nat).

  (** A call that neither locks elements nor reserves positions ends after a bounded number of steps also when it
      is made inside a closure, whatever the calls around it hold. *)
  Theorem C45_wait_free (r r' : rcfg V) id t d o ls : rexecution E ro nl l0 c0 m0 r -> ropen (rhist r) id t d (RPlain o) ->
    grows o = false -> (forall i, ~ touches o i) -> rpath E (rclient E ro nl (length l0)) r ls r' ->
    cost o (a_max (replay (abs0 l0 m0) (flatten r))) <= rsteps_of t ls -> rdone (rhist r') id = true.
  Proof.
    intros X O G T P Hk. destruct (rdone (rhist r') id) eqn:D; [reflexivity|exfalso].
    destruct (rpath_trans _ _ _ _ _ _ _ _ _ X P) as (X' & _ & x & A). destruct (simulation _ _ _ _ _ _ _ X) as [_ Sm].
    set (w := answered (answers r')). assert (Cw : consistent w (answers r')) by apply consistent_self.
    assert (Cr : consistent w (answers r)) by (rewrite A in Cw; now apply consistent_app in Cw). destruct (Sm w Cr) as (c & Xc & Sc).
    destruct (rpath_flat _ _ _ _ _ _ _ _ _ _ _ _ _ _ _ X P Cw Sc (proj1 O) D) as (ls' & c' & P' & Sc' & Q).
    assert (Of : Spec.open (hist c) id (agent t d) o).
    { rewrite (sm_hist _ _ _ Sc). split; [rewrite flat_nth, (proj1 O); reflexivity|]. destruct O as [_ O]. clear - O. unfold rdone in O.
      induction (rhist r) as [|e h IH]; [reflexivity|]. simpl in *. apply orb_false_elim in O as [O1 O2]. rewrite (IH O2). destruct e; simpl in *; rewrite ?O1; reflexivity. }
    assert (Ab : forall n, a_max (replay n (hist c)) = a_max (replay n (flatten r))).
    { intros n. rewrite (sm_hist _ _ _ Sc). unfold flatten. generalize (answered (answers r)). intros w'. clear. revert n. induction (rhist r) as [|e h IH]; intros n; [reflexivity|].
      unfold replay in *. cbn [map fold_left]. destruct e; cbn [flat_event]; try apply IH. }
    destruct (C42_wait_free E ro nl l0 c0 m0 c Xc id (agent t d) o ls' c' Of G T P') as (e & I & En); [rewrite Q, Ab; exact Hk|].
    rewrite (sm_hist _ _ _ Sc') in I. apply in_map_iff in I as (e' & <- & I). assert (K : rdone (rhist r') id = true); [|congruence].
    apply existsb_exists. exists e'. split; [assumption|]. destruct e'; try discriminate; exact En.
  Qed.
End WaitFree.

(** ** Examples *)

(** As [Examples.play]; [RFin t]: the innermost call of thread [t] goes on until user code runs. *)
Inductive ritem : Type := RLab (l : rlabel nat) | RFin (t : nat).
Definition rokb (n0 : nat) (c : rcfg nat) (l : rlabel nat) : bool :=
  match l with
  | NLInv _ o => let o := with_answers (fun _ => None) o in
      negb (mut_refs o) && negb (derefs o) && (requested n0 (flatten c) + request o <? wmod ex)
  | NLClear => negb (existsb is_pan (flatten c))
  | _ => true
  end.
Definition rgo (n0 : nat) (c : rcfg nat) (l : rlabel nat) : option (rcfg nat) :=
  if rokb n0 c l then match rstep ex c l with RNext c' => Some c' | _ => None end else None.
Fixpoint rfinish (fuel n0 : nat) (c : rcfg nat) (t : nat) : option (rcfg nat) :=
  if user_turn (stack t (rrun c)) then Some c else
  match fuel with
  | 0 => None
  | S k => match rgo n0 c (NLStep t) with
           | Some c' => if length (stack t (rrun c')) =? length (stack t (rrun c)) then rfinish k n0 c' t else Some c'
           | None => None
           end
  end.
Fixpoint rplay (n0 : nat) (c : rcfg nat) (s : list ritem) : option (rcfg nat) :=
  match s with
  | [] => Some c
  | RLab l :: s' => match rgo n0 c l with Some c' => rplay n0 c' s' | None => None end
  | RFin t :: s' => match rfinish 100 n0 c t with Some c' => rplay n0 c' s' | None => None end
  end.
Notation rP := (rclient ex false false).
Lemma rgo_reach n0 c0 c l c' : rreach ex (rP n0) c0 c -> rgo n0 c l = Some c' -> rreach ex (rP n0) c0 c'.
Proof.
  unfold rgo. intros R H. destruct (rokb n0 c l) eqn:O; [|discriminate]. destruct (rstep ex c l) as [d| |] eqn:S; try discriminate. injection H as <-.
  eapply rreach_step; eauto. destruct l as [t o|t|t a| |k]; try exact Logic.I.
  - cbn [rokb] in O. cbn [rclient]. cbv zeta in *. rewrite !andb_true_iff, Nat.ltb_lt in O. destruct O as ((O1 & O2) & O3). apply negb_true_iff in O1, O2.
    split; [|assumption]. split; [|split; [assumption|split; [assumption|discriminate]]].
    unfold ranges_ok, range_ok. destruct (with_answers (fun _ => None) o); auto. destruct o0; auto.
  - cbn [rokb] in O. intros (h1 & id & t & m & h2 & o & Hh & _). rewrite Hh, existsb_app in O. simpl in O. rewrite orb_true_r in O. discriminate.
Qed.
Lemma rfinish_reach n0 t fuel : forall c0 c c', rreach ex (rP n0) c0 c -> rfinish fuel n0 c t = Some c' -> rreach ex (rP n0) c0 c'.
Proof.
  induction fuel as [|k IH]; intros c0 c c' R H; cbn [rfinish] in H; destruct (user_turn _) in H; try discriminate; try (injection H as <-; assumption).
  destruct (rgo n0 c (NLStep t)) as [d|] eqn:G; [|discriminate]. pose proof (rgo_reach _ _ _ _ _ R G).
  destruct (_ =? _) in H; [eapply IH; eauto|injection H as <-; assumption].
Qed.
Lemma rplay_reach n0 s : forall c0 c c', rreach ex (rP n0) c0 c -> rplay n0 c s = Some c' -> rreach ex (rP n0) c0 c'.
Proof.
  induction s as [|[l|t] s IH]; intros c0 c c' R; cbn [rplay]; [now intros [= <-]| |].
  - destruct (rgo n0 c l) as [d|] eqn:G; [|discriminate]. apply IH. eapply rgo_reach; eauto.
  - destruct (rfinish 100 n0 c t) as [d|] eqn:G; [|discriminate]. apply IH. eapply rfinish_reach; eauto.
Qed.
Definition rfinal (l0 : list nat) (s : list ritem) : rcfg nat :=
  match rplay (length l0) (rstart l0 2 8) s with Some c => c | None => rstart l0 2 8 end.
Definition rpossible (l0 : list nat) (s : list ritem) : bool :=
  (length l0 <=? 2) && match rplay (length l0) (rstart l0 2 8) s with Some _ => true | None => false end.
Lemma rex_final l0 s : rpossible l0 s = true -> rexecution ex false false l0 2 8 (rfinal l0 s).
Proof.
  unfold rpossible, rfinal. rewrite andb_true_iff, Nat.leb_le. intros [H G]. assert (2 < wmod ex) by (apply Nat.ltb_lt; vm_compute; reflexivity).
  destruct (rplay _ _ s) eqn:Hg; [|discriminate]. split; [exact ex_ok|]. split; [exact ex_cap|]. split; [assumption|]. split; [lia|].
  eapply rplay_reach; [apply rreach_start|exact Hg].
Qed.
Definition rcalls (t : nat) (o : rop nat) : list ritem := [RLab (NLInv t o); RFin t].
Definition answer (t : nat) (a : option (ans nat)) : list ritem := [RLab (NLAns t a); RFin t].
(** Thread 0 takes references to both elements. *)
Definition two : list ritem := rcalls 0 (RPlain (OGet 0)) ++ rcalls 0 (RPlain (OGet 1)).

(** [e0.map(|x| { vec.push(7); e1.update(|y| { vec.len(); *y = 9; }); x + 1 })] *)
Definition nested : list ritem :=
  two ++ rcalls 0 (RElemMap 0) ++ rcalls 0 (RPlain (OPush 7)) ++ rcalls 0 (RElemUpdate 1) ++ rcalls 0 (RPlain OLen) ++
  answer 0 (Some (AWrite 9 true)) ++ answer 0 (Some (AVal 6)).
Lemma nested_run : rexecution ex false false [5; 6] 2 8 (rfinal [5; 6] nested).
Proof. apply rex_final. vm_compute. reflexivity. Qed.
Example C45_flat_example : rexecution ex false false [5; 6] 2 8 (rfinal [5; 6] nested) /\
  skipn 10 (rhist (rfinal [5; 6] nested)) =
    [NInv 10 0 0 (RElemMap 0);
       NInv 11 0 1 (RPlain (OPush 7)); NAcc 11 0 1 (AcAdd 2 1); NAcc 11 0 1 (AcCap 2); NAcc 11 0 1 (AcInit 2 7); NRet 11 0 1 (RNat 2);
       NInv 16 0 1 (RElemUpdate 1);
         NInv 17 0 2 (RPlain OLen); NAcc 17 0 2 (AcCap 4); NAcc 17 0 2 (AcResv 3); NAcc 17 0 2 (AcSt 2 SOME); NRet 17 0 2 (RNat 3);
       NAcc 16 0 1 (AcWrite 1 6 9); NRet 16 0 1 RUnit;
     NAcc 10 0 0 (AcRead 0 5); NRet 10 0 0 (RVal 6)].
Proof. split; [exact nested_run|]. vm_compute. reflexivity. Qed.
Example C45_transfer_example : rexecution ex false false [5; 6] 2 8 (rfinal [5; 6] nested) /\
  map (value (replay (abs0 [5; 6] 8) (flatten (rfinal [5; 6] nested)))) [0; 1; 2; 3] = [Some 5; Some 9; Some 7; None].
Proof. split; [exact nested_run|]. vm_compute. reflexivity. Qed.
Example C45_no_fault_example : rexecution ex false false [5; 6] 2 8 (rfinal [5; 6] nested) /\
  rclient ex false false 2 (rfinal [5; 6] nested) (NLInv 1 RMap).
Proof.
  split; [exact nested_run|]. split; [split; [exact Logic.I|split; [reflexivity|split; [reflexivity|discriminate]]]|].
  apply Nat.ltb_lt. vm_compute. reflexivity.
Qed.
(** 16 is inside 10, and 17 inside both, until the 21st and the 23rd event. *)
Lemma nested_inside : inside (rhist (rfinal [5; 6] nested)) 17 10 (RElemMap 0) /\ inside (rhist (rfinal [5; 6] nested)) 17 16 (RElemUpdate 1).
Proof. split; [exists 0, 0, 2|exists 0, 1, 2]; eexists; (split; [lia|]; split; [split|]; vm_compute; reflexivity). Qed.
Example C45_nesting_example : rexecution ex false false [5; 6] 2 8 (rfinal [5; 6] nested) /\
  inside (rhist (rfinal [5; 6] nested)) 17 10 (RElemMap 0) /\ inside (rhist (rfinal [5; 6] nested)) 17 16 (RElemUpdate 1) /\
  rdone (firstn 20 (rhist (rfinal [5; 6] nested))) 17 = false.
Proof. split; [exact nested_run|]. split; [apply nested_inside|]. split; [apply nested_inside|]. vm_compute. reflexivity. Qed.
Example C45_exclusive_example : rexecution ex false false [5; 6] 2 8 (rfinal [5; 6] nested) /\
  has_lent (rhist (rfinal [5; 6] nested)) 17 0 /\ has_lent (rhist (rfinal [5; 6] nested)) 17 1 /\
  rdone (firstn 20 (rhist (rfinal [5; 6] nested))) 17 = false /\
  nth_error (rhist (rfinal [5; 6] nested)) 20 = Some (NAcc 17 0 2 (AcSt 2 SOME)).
Proof.
  split; [exact nested_run|]. split; [exists 10, (RElemMap 0); split; [apply nested_inside|vm_compute; reflexivity]|].
  split; [exists 16, (RElemUpdate 1); split; [apply nested_inside|vm_compute; reflexivity]|]. split; vm_compute; reflexivity.
Qed.

(** [vec.map(|x| { if second time { e1.set(9) } x })]: the second call of the closure never returns. *)
Definition self : list ritem := two ++ rcalls 0 RMap ++ answer 0 (Some (AVal 0)) ++ [RLab (NLInv 0 (RPlain (OElem 1 (ESet 9))))] ++ repeat (RLab (NLStep 0)) 20.
Example C45_self_deadlock_example : rexecution ex false false [5; 6] 2 8 (rfinal [5; 6] self) /\
  nth_error (rhist (rfinal [5; 6] self)) 14 = Some (NInv 14 0 1 (RPlain (OElem 1 (ESet 9)))) /\
  has_lent (rhist (rfinal [5; 6] self)) 14 1 /\ uses (RPlain (V := nat) (OElem 1 (ESet 9))) 1.
Proof.
  split; [apply rex_final; vm_compute; reflexivity|]. split; [vm_compute; reflexivity|]. split; [|reflexivity].
  exists 10, RMap. split; [|vm_compute; reflexivity]. exists 0, 0, 1. eexists. split; [lia|]. split; [split|]; vm_compute; reflexivity.
Qed.

(** [e0.map(|_| e1.set(7))] and [e1.map(|_| e0.set(8))] in two threads: each closure waits for the other. *)
Definition cross : list ritem :=
  two ++ rcalls 0 (RElemMap 0) ++ rcalls 1 (RElemMap 1) ++
  [RLab (NLInv 0 (RPlain (OElem 1 (ESet 7)))); RLab (NLStep 0); RLab (NLInv 1 (RPlain (OElem 0 (ESet 8)))); RLab (NLStep 1)].
Example C45_deadlock_example : rexecution ex false false [5; 6] 2 8 (rfinal [5; 6] cross) /\
  blocked (rhist (rfinal [5; 6] cross)) (fun id => id = 12 \/ id = 13).
Proof.
  split; [apply rex_final; vm_compute; reflexivity|].
  assert (L12 : has_lent (rhist (rfinal [5; 6] cross)) 12 0).
  { exists 10, (RElemMap 0). split; [|vm_compute; reflexivity]. exists 0, 0, 1. eexists. split; [lia|]. split; [split|]; vm_compute; reflexivity. }
  assert (L13 : has_lent (rhist (rfinal [5; 6] cross)) 13 1).
  { exists 11, (RElemMap 1). split; [|vm_compute; reflexivity]. exists 1, 0, 1. eexists. split; [lia|]. split; [split|]; vm_compute; reflexivity. }
  assert (No : forall id, id = 12 \/ id = 13 -> forall k t d x, nth_error (rhist (rfinal [5; 6] cross)) k <> Some (NAcc id t d x)).
  { intros id Hid k t d x H. apply nth_error_In in H. assert (K : existsb (fun e => match e with NAcc j _ _ _ => 12 <=? j | _ => false end) (rhist (rfinal [5; 6] cross)) = true).
    { apply existsb_exists. exists (NAcc id t d x). split; [assumption|]. destruct Hid as [-> | ->]; reflexivity. }
    revert K. vm_compute. discriminate. }
  intros id [-> | ->].
  - exists 0, 1, (RPlain (OElem 1 (ESet 7))), 1, 13. split; [split; vm_compute; reflexivity|]. split; [auto|]. split; [assumption|]. split; [left; reflexivity|].
    intros k t d x H _. exact (No 12 (or_introl eq_refl) k t d x H).
  - exists 1, 1, (RPlain (OElem 0 (ESet 8))), 0, 12. split; [split; vm_compute; reflexivity|]. split; [auto|]. split; [assumption|]. split; [left; reflexivity|].
    intros k t d x H _. exact (No 13 (or_intror eq_refl) k t d x H).
Qed.

(** [e0.map(|_| vec.get(0))] while the element is locked by the call around. *)
Definition inner : list ritem := two ++ rcalls 0 (RElemMap 0) ++ [RLab (NLInv 0 (RPlain (OGet 0)))].
Example C45_wait_free_example : rexecution ex false false [5; 6] 2 8 (rfinal [5; 6] inner) /\
  ropen (rhist (rfinal [5; 6] inner)) 11 0 1 (RPlain (OGet 0)) /\ (forall i, ~ touches (V := nat) (OGet 0) i) /\
  exists ls r', rpath ex (rclient ex false false 2) (rfinal [5; 6] inner) ls r' /\ rsteps_of 0 ls = 7 /\ rdone (rhist r') 11 = true.
Proof.
  split; [apply rex_final; vm_compute; reflexivity|]. split; [split; vm_compute; reflexivity|]. split; [simpl; auto|].
  exists (repeat (NLStep 0) 7). eexists. split; [|split; [reflexivity|]].
  - cbn [repeat rpath]. do 7 (split; [exact Logic.I|]; eexists; split; [vm_compute; reflexivity|]). reflexivity.
  - vm_compute. reflexivity.
Qed.

Print Assumptions C45_flat.
Print Assumptions C45_transfer.
Print Assumptions C45_no_fault.
Print Assumptions C45_nesting.
Print Assumptions C45_exclusive.
Print Assumptions C45_deadlock.
Print Assumptions C45_self_deadlock.
Print Assumptions C45_wait_free.
