(** * C10, C15, C16, C17: safety, growth of the storage, panics. *)

From Coq Require Import List Arith Bool Lia.
From Verif.Model Require Import Prog Mem Deps State Elem Vec Excl Machine.
From Verif Require Import Client Spec Lists.
From Verif.Logic Require Import Inv WP Post Specs Ops Sound Shape Clients Hist Facts Visits.
From Verif.Properties Require Import Examples.
Import ListNotations.

Section Safety.
  Context {V : Type} (E : env V) (l0 : list V) (c0 m0 : nat) (c : cfg V).
  Hypothesis X : execution E false false l0 c0 m0 c.
  Notation h := (hist c).
  Notation a0 := (abs0 l0 m0).

  (** C10: no step of an execution violates a safety contract: no data race, no access beyond the
      storage, no read of an uninitialised value, no second initialisation, no bad range ([fault]).
      (The client may use every method but [ODeref] and [ODerefMut], the uses of the references
      given out by the unsafe methods.) *)
  Theorem C10_no_fault l f : client E false false (length l0) c l -> step E c l <> Fault f.
  Proof. now apply (execution_no_fault E false false l0 c0 m0). Qed.

  (** ... and the memory holds the abstract vector described by the history. *)
  Theorem C10_memory i : 
    resv (sh c) = a_len (replay a0 h) /\ maxc (sh c) = a_max (replay a0 h) /\
    (forall v, value (replay a0 h) i = Some v <->
       i < cap (sh c) /\ sst (slots (sh c) i) <> NONE /\ sval (slots (sh c) i) = Some v).
  Proof.
    destruct (execution_world _ _ _ _ _ _ c X) as (snap & g & W). pose proof (w_gi _ _ _ _ _ _ _ _ W) as G.
    pose proof (gi_agree _ _ _ _ _ _ _ _ G) as [A1 A2 A3]. unfold Sound.a0 in *. split; [assumption|]. split; [assumption|].
    intros v. rewrite <- A3. unfold cell. destruct (Nat.ltb_spec i (cap (sh c))).
    - destruct (sst (slots (sh c) i)) eqn:St; split; try (intros; discriminate); try (intros (_ & N & _); congruence);
        try (intros Hv; split; [assumption|]; split; [discriminate|assumption]); now intros (_ & _ & Hv).
    - split; [discriminate|]. intros (Hi & _). lia.
  Qed.

  (** C15: at most one thread is growing the storage; ... *)
  Theorem C15_exclusive t u x y n m k k' : lookup t (run c) = Some x -> lookup u (run c) = Some y ->
    c_prog x = Act (GrowEnd n) k -> c_prog y = Act (GrowEnd m) k' -> t = u.
  Proof.
    intros Ht Hu Px Py.
    assert (K : forall t x n k, lookup t (run c) = Some x -> c_prog x = Act (GrowEnd n) k -> growing (sh c) = Some t).
    { intros t' x' n' k0 Lk Hp. assert (F : forall f, step E c (LStep t') <> Fault f) by (intros f; apply C10_no_fault; exact I). simpl in F. unfold step_thread in F. rewrite Lk, Hp in F.
      simpl in F. destruct (growing (sh c)) as [w|]; simpl in F; [|exfalso; now apply (F FRace)].
      destruct (Nat.eqb_spec w t') as [e|]; [now subst w|exfalso; now apply (F FRace)]. }
    pose proof (K _ _ _ _ Ht Px). pose proof (K _ _ _ _ Hu Py). congruence.
  Qed.

  (** ... the capacity never decreases and never exceeds the maximum capacity (which never decreases
      either); ... *)
  Lemma cap_step d l d' : execution E false false l0 c0 m0 d -> step E d l = Next d' -> 
    cap (sh d) <= cap (sh d') /\ maxc (sh d) <= maxc (sh d').
  Proof.
    intros D S. destruct (execution_world _ _ _ _ _ _ d D) as (snap & g & W).
    pose proof (i_cap _ _ _ _ (gi_inv _ _ _ _ _ _ _ _ (w_gi _ _ _ _ _ _ _ _ W))) as Ok. pose proof (proj1 D) as EOK.
    assert (K : forall t (a : act V) y s' lg, exec E t a (sh d) = Done y s' lg -> cap (sh d) <= cap s' /\ maxc s' = maxc (sh d)).
    { intros t a y s' lg Ex. destruct a; simpl in Ex; unfold with_slot in Ex;
      repeat match goal with
             | H : context [if ?b then _ else _] |- _ => let Q := fresh "Q" in destruct b eqn:Q
             | H : context [match ?b with _ => _ end] |- _ => let Q := fresh "Q" in destruct b eqn:Q
             end; try discriminate; injection Ex as <- <- <-; simpl; auto.
      split; [|reflexivity]. eapply (ok_pol' _ EOK); eauto. }
    destruct l as [t o|t| |k]; simpl in S.
    - destruct (lookup t (run d)); [discriminate|]. destruct (has_grant o (given d)); [|discriminate]. injection S as <-. simpl. lia.
    - unfold step_thread in S. destruct (lookup t (run d)) as [x|]; [|discriminate]. destruct (c_prog x) as [r|m|a k|a ag k].
      + injection S as <-. simpl. lia.
      + injection S as <-. simpl. lia.
      + destruct (exec E t a (sh d)) eqn:Ex; [|discriminate]. injection S as <-. simpl. destruct (K _ _ _ _ _ Ex). lia.
      + destruct (exec E t a (sh d)) eqn:Ex; [|discriminate]. destruct (ag x0); injection S as <-; simpl; [lia|]. destruct (K _ _ _ _ _ Ex). lia.
    - destruct (run d); [|discriminate]. unfold clear in S. destruct (resv (sh d) <=? cap (sh d)); [|discriminate].
      injection S as <-. simpl. lia.
    - destruct (run d); [|discriminate]. unfold reserve_maximum_capacity in S.
      destruct (reserve E (cap (sh d)) (maxc (sh d)) k) as [m|] eqn:R; injection S as <-; simpl; [|lia].
      destruct (ok_res _ EOK _ _ _ _ Ok R). lia.
  Qed.
  Theorem C15_bounded : cap (sh c) <= maxc (sh c).
  Proof.
    destruct (execution_world _ _ _ _ _ _ c X) as (snap & g & W). apply (ok_le _ (proj1 X)).
    apply (gi_inv _ _ _ _ _ _ _ _ (w_gi _ _ _ _ _ _ _ _ W)).
  Qed.
  Theorem C15_monotone c' : reach E (client E false false (length l0)) c c' ->
    cap (sh c) <= cap (sh c') /\ maxc (sh c) <= maxc (sh c').
  Proof.
    induction 1 as [|d l d' R IH C S]; [lia|]. pose proof (execution_reach _ _ _ _ _ _ _ _ X R) as D.
    destruct (cap_step d l d' D S). lia.
  Qed.
  (** the same, as seen by [capacity()] *)
  Theorem C15_capacity id r n : returned h id r OCap (RNat n) -> n <= a_max (before a0 h r).
  Proof.
    intros R. destruct (execution_expl _ _ _ _ _ _ c X) as (snap & Ex & _).
    destruct (h_returned _ _ _ _ _ _ _ Ex _ _ _ _ R) as (Hi & Hr & He & _ & P & _). destruct P as (k & Q & _ & Hk). injection Q as <-.
    destruct R as (t & R1 & R2). destruct (in_accs _ _ _ _ _ _ _ Ex id r _ _ Hk R2 (Nat.eqb_refl id)) as (j & u & Hj & Hx & _).
    destruct (h_ev _ _ _ _ _ _ _ Ex j _ Hx) as (_ & [L _] & _). pose proof (h_max _ _ _ _ _ _ _ Ex j r). lia.
  Qed.
  (** What it returns was the capacity at some time during the call. *)
  Theorem C15_reported id r n : returned h id r OCap (RNat n) -> exists d, execution E false false l0 c0 m0 d /\
    reach E (client E false false (length l0)) d c /\ id < length (hist d) <= r /\ cap (sh d) = n.
  Proof.
    intros R. destruct (execution_expl _ _ _ _ _ _ c X) as (snap & Ex & _).
    destruct (h_returned _ _ _ _ _ _ _ Ex _ _ _ _ R) as (Hi & Hr & He & _ & P & _). destruct P as (k & Q & _ & Hk). injection Q as <-.
    destruct R as (t & R1 & R2). destruct (in_accs _ _ _ _ _ _ _ Ex id r _ _ Hk R2 (Nat.eqb_refl id)) as (j & u & Hj & Hx & _).
    destruct (execution_event _ _ _ _ _ _ c j _ X Hx) as (d & l & d' & D1 & D0 & D2 & D3 & D4 & D5). exists d'.
    split; [eapply execution_step; eauto|]. split; [assumption|].
    assert (Ld : length (hist d) = j) by (rewrite D3, firstn_length; pose proof (nth_lt _ _ _ Hx); lia).
    split; [rewrite D4, app_length, Ld; simpl; lia|].
    assert (A : forall t (a : act V) y s' l, exec E t a (sh d) = Done y s' l -> l = [AcCap n] -> cap s' = n).
    { intros t' a y s' l' H. destruct a; simpl in H; unfold with_slot in H;
        repeat match goal with
               | H : context [if ?b then _ else _] |- _ => let Q := fresh "Q" in destruct b eqn:Q
               | H : context [match ?b with _ => _ end] |- _ => let Q := fresh "Q" in destruct b eqn:Q
               end; try discriminate; injection H as <- <- <-; simpl; try discriminate; congruence. }
    assert (B : forall t x p s l, hist (after t d x p s l) = hist d ++ [EAcc id u (AcCap n)] -> l = [AcCap n]).
    { intros t' x' p s l' H. simpl in H. apply app_inv_head in H. destruct l' as [|b [|]]; simpl in H; congruence. }
    destruct l as [t' o'|t'| |k']; simpl in D2.
    - destruct (lookup t' (run d)); [discriminate|]. destruct (has_grant o' (given d)); [|discriminate]. injection D2 as <-. simpl in D4.
      apply app_inv_head in D4. discriminate.
    - unfold step_thread in D2. destruct (lookup t' (run d)) as [y|]; [|discriminate]. destruct (c_prog y).
      + injection D2 as <-. simpl in D4. apply app_inv_head in D4. discriminate.
      + injection D2 as <-. simpl in D4. apply app_inv_head in D4. discriminate.
      + destruct (exec E t' a (sh d)) eqn:Ea; [|discriminate]. injection D2 as <-. apply B in D4. simpl. eapply A; eauto.
      + destruct (exec E t' a (sh d)) eqn:Ea; [|discriminate]. destruct (again x); injection D2 as <-.
        * apply (f_equal (@length _)) in D4. rewrite app_length in D4. simpl in D4. lia.
        * apply B in D4. simpl. eapply A; eauto.
    - destruct (run d); [|discriminate]. destruct (clear (sh d)); try discriminate; injection D2 as <-; simpl in D4.
      + apply app_inv_head in D4. discriminate.
      + apply (f_equal (@length _)) in D4. rewrite app_length in D4. simpl in D4. lia.
    - destruct (run d); [|discriminate]. destruct (reserve_maximum_capacity E k' (sh d)) as [[m s]| |]; try discriminate; injection D2 as <-; simpl in D4.
      + apply app_inv_head in D4. discriminate.
      + apply (f_equal (@length _)) in D4. rewrite app_length in D4. simpl in D4. lia.
  Qed.
  Theorem C15_capacity_monotone id1 r1 n1 id2 r2 n2 : returned h id1 r1 OCap (RNat n1) -> returned h id2 r2 OCap (RNat n2) ->
    r1 < id2 -> epoch h id1 = epoch h id2 -> n1 <= n2.
  Proof.
    intros R1 R2 L He. destruct (execution_expl _ _ _ _ _ _ c X) as (snap & Ex & _).
    assert (K : forall id r n, returned h id r OCap (RNat n) -> epoch h id = epoch h r /\ exists j, id < j < r /\ r < length h /\ epoch h j = epoch h id /\ cap (snap j) = n).
    { intros id r n R. destruct (h_returned _ _ _ _ _ _ _ Ex _ _ _ _ R) as (Hi & Hr & He' & _ & P & _). destruct P as (k & Q & _ & Hk). injection Q as <-.
      destruct R as (t & Q1 & Q2). destruct (in_accs _ _ _ _ _ _ _ Ex id r _ _ Hk Q2 (Nat.eqb_refl id)) as (j & u & Hj & Hx & Hej).
      split; [assumption|]. exists j. split; [assumption|]. split; [assumption|]. split; [assumption|]. destruct (h_ev _ _ _ _ _ _ _ Ex j _ Hx) as (_ & _ & C). exact C. }
    destruct (K _ _ _ R1) as (E1 & j1 & H1 & L1 & F1 & <-). destruct (K _ _ _ R2) as (E2 & j2 & H2 & L2 & F2 & <-).
    apply (h_mono _ _ _ _ _ _ _ Ex j1 j2); lia.
  Qed.
  (** ... and the step that makes the storage larger changes nothing else: no element moves, the
      history (hence the abstract vector) is the same. *)
  Theorem C15_harmless t c' : step E c (LStep t) = Next c' -> cap (sh c') <> cap (sh c) ->
    hist c' = h /\ resv (sh c') = resv (sh c) /\ maxc (sh c') = maxc (sh c) /\
    forall i, i < cap (sh c) -> slots (sh c') i = slots (sh c) i.
  Proof.
    simpl. unfold step_thread. destruct (lookup t (run c)) as [x|]; [|discriminate].
    assert (K : forall (a : act V) y s' lg, exec E t a (sh c) = Done y s' lg -> cap s' <> cap (sh c) ->
      lg = [] /\ resv s' = resv (sh c) /\ maxc s' = maxc (sh c) /\ forall i, i < cap (sh c) -> slots s' i = slots (sh c) i).
    { intros a y s' lg Ex. destruct a; simpl in Ex; unfold with_slot in Ex;
      repeat match goal with
             | H : context [if ?b then _ else _] |- _ => let Q := fresh "Q" in destruct b eqn:Q
             | H : context [match ?b with _ => _ end] |- _ => let Q := fresh "Q" in destruct b eqn:Q
             end; try discriminate; injection Ex as <- <- <-; simpl; try congruence; intros _.
      repeat (split; [reflexivity|]). intros i Hi. unfold fill_fresh. destruct (Nat.leb_spec (cap (sh c)) i); [lia|reflexivity]. }
    destruct (c_prog x) as [r|m|a k|a ag k]; intros S.
    - injection S as <-. simpl. congruence.
    - injection S as <-. simpl. congruence.
    - destruct (exec E t a (sh c)) eqn:Ex; [|discriminate]. injection S as <-. simpl. intros N. destruct (K _ _ _ _ Ex N) as (-> & K1).
      simpl. rewrite app_nil_r. auto.
    - destruct (exec E t a (sh c)) eqn:Ex; [|discriminate]. destruct (ag x0); injection S as <-; simpl; [congruence|]. intros N. destruct (K _ _ _ _ Ex N) as (-> & K1).
      simpl. rewrite app_nil_r. auto.
  Qed.

  (** C16: a growth call that returns got positions below the maximum capacity; ... *)
  Theorem C16_returned id r b n : grew h id r b n -> 0 < n -> b + n <= a_max (before a0 h id).
  Proof.
    intros G Hn. destruct (execution_expl _ _ _ _ _ _ c X) as (snap & Ex & _).
    destruct (grew_has _ _ _ _ _ _ _ Ex id r b n (b + n - 1) G ltac:(lia)) as (v & Hv).
    destruct G as (o & R & _). pose proof R as (t & R1 & R2). destruct (h_returned _ _ _ _ _ _ _ Ex _ _ _ _ R) as (Hi & Hr & _ & Ne & _).
    rewrite <- (call_max _ _ _ _ _ _ _ Ex id r r t o R1) by (auto; lia).
    destruct (h_good _ _ _ _ _ _ _ Ex r ltac:(lia)) as [[g I] A]. unfold Sound.a0 in A. rewrite <- (ag_max _ _ A).
    assert (F : filledp (snap r) (b + n - 1)) by (apply (h_filled _ _ _ _ _ _ _ Ex); [lia|eauto]).
    destruct F as [F _]. pose proof (ok_le _ (proj1 X) _ _ (i_cap _ _ _ _ I)). lia.
  Qed.
  (** ... one that panics with out-of-capacity was given a position at or beyond it, and changed
      nothing but the number of positions handed out; ... *)
  Theorem C16_panicked id r o : panicked h id r o PMaxCap ->
    grows o = true /\ 0 < request o /\
    exists b, (forall b' n, In (AcAdd b' n) (accs id h) <-> b' = b /\ n = request o) /\
              a_max (before a0 h id) < b + request o /\ stored id h = [] /\
              forall i, value (before a0 h (S r)) i = value (before a0 h r) i.
  Proof.
    intros P. destruct (execution_expl _ _ _ _ _ _ c X) as (snap & Ex & _).
    destruct (h_panicked _ _ _ _ _ _ _ Ex _ _ _ _ P) as (Hi & Hr & He & _ & Q). destruct P as (t & P1 & P2).
    assert (Gr : grows o = true).
    { destruct o; simpl in Q; try contradiction; try reflexivity; exfalso.
      - destruct Q as [Q _]. discriminate.
      - destruct Q as (n & _ & Q & _). discriminate.
      - destruct Q as (n & _ & Q & _). discriminate.
      - destruct Q as (n & _ & Q & _). discriminate.
      - destruct Q as (n & _ & Q & _). discriminate.
      - destruct Q as (n & _ & Q & _). discriminate.
      - destruct Q as (n & _ & Q & _). discriminate.
      - destruct Q as [Q _]. discriminate.
      - destruct Q as [Q _]. discriminate.
      - destruct o; simpl in Q; try contradiction; destruct Q as [Q _]; discriminate.
      - destruct o; simpl in Q; try contradiction; destruct Q as [Q _]; discriminate. }
    split; [assumption|].
    destruct (pan_grows E _ _ _ _ _ Q Gr) as (b & vs & Lv & Ef & [(_ & H0 & Hm & ->)|(N & _)]); [|congruence].
    split; [assumption|]. exists b. simpl in Ef. rewrite <- (accs_all _ _ _ _ _ _ _ Ex id r _ P2 (Nat.eqb_refl id)) in Ef.
    split; [|split; [|split]].
    - intros b' n. split.
      + intros H. pose proof (eff_in _ _ H eq_refl) as H'. rewrite Ef in H'. destruct H' as [H'|[]]. now injection H' as <- <-.
      + intros [-> ->]. assert (H : In (AcAdd b (request o)) (eff (accs id h))) by (rewrite Ef; now left). apply filter_In in H. apply H.
    - destruct (h_good _ _ _ _ _ _ _ Ex id ltac:(lia)) as [_ A]. unfold Sound.a0 in A. now rewrite <- (ag_max _ _ A).
    - rewrite stored_eff, Ef. reflexivity.
    - intros i. rewrite (before_S _ h r _ P2). apply value_apply; simpl; [tauto|]. intros; discriminate.
  Qed.
  (** ... and a call that was given such a position panics with out-of-capacity (except that the
      closure of [push_for_idx] may panic first). *)
  Theorem C16_exactly id r o b e : called h id o -> In (AcAdd b (request o)) (accs id h) -> 0 < request o ->
    a_max (before a0 h id) < b + request o -> nth_error h r = Some e -> is_end id e = true ->
    panicked h id r o PMaxCap \/ (exists f, o = OPushFor f /\ f b = None /\ panicked h id r o PClosure).
  Proof.
    intros (t & Cl) Ad H0 Hm Hr He. destruct (execution_expl _ _ _ _ _ _ c X) as (snap & Ex & _).
    rewrite (accs_all _ _ _ _ _ _ _ Ex id r e Hr He) in Ad.
    destruct e as [| id' u v|id' u m| | |]; try discriminate; simpl in He; apply Nat.eqb_eq in He; subst id'.
    - exfalso. destruct (h_ret _ _ _ _ _ _ _ Ex r id u v Hr) as (o' & L & Ho & _ & _ & P & _).
      rewrite Cl in Ho. injection Ho as <- <-.
      assert (Gr : grows o = true) by (destruct o; simpl in H0; try lia; reflexivity).
      destruct (post_grows E _ _ _ _ _ P Gr) as (b' & vs & -> & _ & Lv & Ef).
      assert (b' = b). { pose proof (eff_in _ _ Ad eq_refl) as Y. rewrite Ef in Y. destruct Y as [Y|Y]; [now injection Y|]. apply inits_only in Y. destruct Y as (? & ? & Y). discriminate. }
      subst b'. pose proof (C16_returned id r b (request o)) as K.
      assert (grew h id r b (request o)) by (exists o; split; [exists t; auto|auto]). specialize (K H H0). lia.
    - destruct (h_pan _ _ _ _ _ _ _ Ex r id u m Hr) as (o' & L & Ho & _ & Ne & P).
      rewrite Cl in Ho. injection Ho as <- <-.
      assert (Gr : grows o = true) by (destruct o; simpl in H0; try lia; reflexivity).
      destruct (pan_grows E _ _ _ _ _ P Gr) as (b' & vs & Lv & Ef & Q).
      assert (b' = b). { pose proof (eff_in _ _ Ad eq_refl) as Y. rewrite Ef in Y. destruct Y as [Y|Y]; [now injection Y|]. apply inits_only in Y. destruct Y as (? & ? & Y). discriminate. }
      subst b'. destruct Q as [(-> & _)|(_ & _ & [(f & -> & Hf & ->)|Q])].
      + left. exists t. auto.
      + right. exists f. split; [reflexivity|]. split; [assumption|]. exists t. auto.
      + exfalso. specialize (Q H0). pose proof (nth_lt _ _ _ Hr) as Lr.
        destruct (h_good _ _ _ _ _ _ _ Ex r ltac:(lia)) as [[g I] A]. unfold Sound.a0 in A.
        pose proof (ok_le _ (proj1 X) _ _ (i_cap _ _ _ _ I)). rewrite (ag_max _ _ A) in H.
        rewrite (call_max _ _ _ _ _ _ _ Ex id r r t o Cl) in H by (auto; lia). lia.
  Qed.

  (** C17: an element is locked only while a call that may lock it is running; so a call that has
      ended, with a panic or not, holds nothing. *)
  Theorem C17_released i : i < cap (sh c) -> sst (slots (sh c) i) = RESERVED ->
    exists id t o, open h id t o /\ touches o i.
  Proof.
    intros Hi St. destruct (execution_world _ _ _ _ _ _ c X) as (snap & g & W). pose proof (w_gi _ _ _ _ _ _ _ _ W) as G.
    destruct (locked_by _ _ _ _ _ _ _ _ i G Hi St) as (t & m & x & Hg & Lk).
    destruct (gi_run _ _ _ _ _ _ _ _ G t x Lk) as [O _]. exists (c_id x), t, (c_op x). split; [assumption|].
    eapply (w_locks _ _ _ _ _ _ _ _ W); eauto.
  Qed.
  (** [update]: the value is the one the closure left behind; ... *)
  Theorem C17_update id r i f m : panicked h id r (OElem i (EUpdate f)) m -> m = PClosure /\
    exists old k t, id < k < r /\ nth_error h k = Some (EAcc id t (AcWrite i old (fst (f old)))) /\ snd (f old) = false /\
      value (before a0 h k) i = Some old /\ value (before a0 h (S k)) i = Some (fst (f old)) /\
      forall k' t' x, nth_error h k' = Some (EAcc id t' x) -> k' <> k -> forall j, value (before a0 h (S k')) j = value (before a0 h k') j.
  Proof.
    intros P. destruct (execution_expl _ _ _ _ _ _ c X) as (snap & Ex & _).
    destruct (h_panicked _ _ _ _ _ _ _ Ex _ _ _ _ P) as (Hi & Hr & He & _ & Q). destruct Q as (-> & old & Ef & Hf).
    split; [reflexivity|]. destruct P as (t & P1 & P2).
    destruct (one_eff _ _ _ _ _ _ _ Ex id r _ _ P2 (Nat.eqb_refl id) Ef) as (k & u & Hk & Hn & _ & U).
    exists old, k, u. split; [assumption|]. split; [assumption|]. split; [assumption|].
    destruct (h_ev _ _ _ _ _ _ _ Ex k _ Hn) as (_ & Lg & _). simpl in Lg.
    split; [unfold value; now rewrite Lg|]. split; [rewrite (before_S _ h k _ Hn); unfold value; simpl; now rewrite upd_same|].
    intros k' t' x Hx N j. eapply no_eff_value; eauto.
  Qed.
  (** ... and no other panicking call changes the vector, except for growth calls, and [fill_with],
      which has filled the elements before the one its closure panicked at. *)
  Theorem C17_others id r o m : panicked h id r o m -> grows o = false ->
    (forall i f, o <> OElem i (EUpdate f)) -> (forall f, o <> OFillWith f) -> (forall x f, o <> OSl x (SFillWith f)) ->
    only_reads id h.
  Proof.
    intros P Gr N1 N2 N3. destruct (execution_expl _ _ _ _ _ _ c X) as (snap & Ex & _).
    destruct (h_panicked _ _ _ _ _ _ _ Ex _ _ _ _ P) as (Hi & Hr & He & _ & Q). destruct P as (t & P1 & P2).
    apply (eff_nil_reads _ _ _ _ _ _ _ Ex id r _ P2 (Nat.eqb_refl id)). intros x Hx.
    assert (Nil : eff (accs id (firstn r h)) = [] -> exists i v, x = AcRead i v) by (intros Y; rewrite Y in Hx; destruct Hx).
    assert (Rd : forall P a n m, reads_pan P a n m (accs id (firstn r h)) -> exists i v, x = AcRead i v).
    { intros P a n m' (_ & vs & _ & Y & _). rewrite Y in Hx. eapply reads_only; eauto. }
    destruct o; simpl in Q; try contradiction; try discriminate.
    - apply Nil, Q.
    - destruct Q as (n & _ & Q). apply Nil, Q.
    - exfalso. eapply N2; eauto.
    - destruct Q as (n & _ & Q). eauto.
    - destruct Q as (n & _ & Q). eauto.
    - destruct Q as (n & _ & Q). eauto.
    - destruct Q as (n & _ & Q). eauto.
    - apply Nil, Q.
    - apply Nil, Q.
    - destruct o; simpl in Q; try contradiction.
      + destruct Q as (_ & v & Y & _). rewrite Y in Hx. destruct Hx as [<-|[]]. eauto.
      + exfalso. eapply N1; eauto.
    - destruct o; simpl in Q; try contradiction; eauto; try (apply Nil, Q). exfalso. eapply N3; eauto.
  Qed.
  (** [fill_with]: the closure panicked for some element; the elements before it got the values of the
      closure, in order, and nothing else was changed. *)
  Theorem C17_fill_with id r o f m : panicked h id r o m -> method o = Some (SFillWith f) ->
    m = PClosure /\ exists a k, match o with OSl x _ => a = sl_a x /\ k < sl_len x | _ => a = 0 end /\
      visited id h = seq a k /\ read_vals id h = [] /\
      map Some (map snd (written_vals id h)) = map f (seq 0 k) /\ f k = None.
  Proof.
    intros P M. destruct (execution_expl _ _ _ _ _ _ c X) as (snap & Ex & _).
    destruct (h_panicked _ _ _ _ _ _ _ Ex _ _ _ _ P) as (Hi & Hr & He & _ & Q). destruct P as (t & P1 & P2).
    assert (W : exists a n, match o with OSl x _ => a = sl_a x /\ n = sl_len x | _ => a = 0 end /\ writes_pan f a n m (accs id (firstn r h))).
    { destruct o; try discriminate; simpl in Q; simpl in M; injection M as ->; [destruct Q as (n & _ & Q)|]; eauto. }
    destruct W as (a & n & C & -> & ps & Ln & H1 & H2 & H3). split; [reflexivity|]. exists a, (length ps).
    rewrite <- (accs_all _ _ _ _ _ _ _ Ex id r _ P2 (Nat.eqb_refl id)) in H2. destruct (of_writes id h a ps H2) as (V1 & V2 & V3). rewrite V1, V2, V3.
    split; [destruct o; auto; destruct C as [-> ->]; auto|]. repeat split; auto. now apply closure_values.
  Qed.
End Safety.

(** Two threads grow the vector, closures panic, growth runs out of capacity; at the end thread 0 is
    reading the element 0. *)
Definition bump (v : nat) : nat * bool := (v + 1, false).
Definition gen (k : nat) : option nat := match k with 0 => Some 1 | 1 => Some 2 | _ => None end.
Definition not9 (k v : nat) : option nat := if v =? 9 then None else Some v.
Definition safety_script : list (item nat) :=
  calls 0 (OGet 0) ++ calls 0 OCap ++ begin 0 (OPush 7) 2 ++ begin 1 (OExtend 3 [Some 8; Some 9; Some 4]) 4 ++ [Fin 0; Fin 1] ++
  calls 2 (OElem 0 (EUpdate bump)) ++ calls 0 (OElem 0 ECloned) ++ calls 2 (OFillWith gen) ++ calls 1 (OMap not9) ++
  calls 1 OCap ++ calls 2 (OExtend 4 [Some 1; Some 2; Some 3; Some 4]) ++ calls 0 (OPush 3) ++ calls 0 OCap ++
  begin 0 (OElem 0 ECloned) 2.
Notation ss := (final [5] safety_script).
Lemma safety_execution : execution ex false false [5] 2 8 ss.
Proof. apply ex_final. vm_compute. reflexivity. Qed.
Example safety_example_capacity : returned (hist ss) 5 7 OCap (RNat 2) /\ returned (hist ss) 44 46 OCap (RNat 6) /\
  epoch (hist ss) 5 = epoch (hist ss) 44.
Proof. split; [exists 0; split; vm_compute; reflexivity|]. split; [exists 1; split; vm_compute; reflexivity|vm_compute; reflexivity]. Qed.
Example safety_example_growth : grew (hist ss) 8 15 1 1 /\ grew (hist ss) 10 19 2 3.
Proof.
  split; [exists (OPush 7)|exists (OExtend 3 [Some 8; Some 9; Some 4])];
  (split; [eexists; split; vm_compute; reflexivity|split; reflexivity]).
Qed.
Example safety_example_max : panicked (hist ss) 47 49 (OExtend 4 [Some 1; Some 2; Some 3; Some 4]) PMaxCap /\
  panicked (hist ss) 50 52 (OPush 3) PMaxCap /\ In (AcAdd 9 1) (accs 50 (hist ss)) /\
  a_max (before (abs0 [5] 8) (hist ss) 50) = 8.
Proof.
  split; [exists 2; split; vm_compute; reflexivity|]. split; [exists 0; split; vm_compute; reflexivity|].
  split; [vm_compute; auto|vm_compute; reflexivity].
Qed.
Example safety_example_closures : panicked (hist ss) 20 22 (OElem 0 (EUpdate bump)) PClosure /\
  panicked (hist ss) 26 35 (OFillWith gen) PClosure /\ panicked (hist ss) 36 43 (OMap not9) PClosure.
Proof. split; [|split]; eexists; split; vm_compute; reflexivity. Qed.
Example safety_example_locked : sst (slots (sh ss) 0) = RESERVED /\ (0 <? cap (sh ss)) = true.
Proof. split; vm_compute; reflexivity. Qed.
(** thread 1 is about to end growing the storage; its next step makes it larger *)
Example safety_example_growing : exists x n k,
  lookup 1 (run (final [5] (begin 1 (OExtend 3 [Some 8; Some 9; Some 4]) 4))) = Some x /\ c_prog x = Act (GrowEnd n) k /\
  exists c', step ex (final [5] (begin 1 (OExtend 3 [Some 8; Some 9; Some 4]) 4)) (LStep 1) = Next c' /\
    (cap (sh c') =? cap (sh (final [5] (begin 1 (OExtend 3 [Some 8; Some 9; Some 4]) 4)))) = false.
Proof.
  destruct (lookup 1 (run (final [5] (begin 1 (OExtend 3 [Some 8; Some 9; Some 4]) 4)))) as [x|] eqn:L.
  2: { vm_compute in L. discriminate. }
  vm_compute in L. injection L as <-. eexists _, _, _. split; [reflexivity|]. split; [reflexivity|].
  eexists. split; vm_compute; reflexivity.
Qed.

Print Assumptions C10_no_fault.
Print Assumptions C10_memory.
Print Assumptions C15_exclusive.
Print Assumptions C15_bounded.
Print Assumptions C15_monotone.
Print Assumptions C15_capacity.
Print Assumptions C15_reported.
Print Assumptions C15_capacity_monotone.
Print Assumptions C15_harmless.
Print Assumptions C16_returned.
Print Assumptions C16_panicked.
Print Assumptions C16_exactly.
Print Assumptions C17_released.
Print Assumptions C17_update.
Print Assumptions C17_others.
Print Assumptions C17_fill_with.
