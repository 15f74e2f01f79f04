(** * C36, C37, C41: where the vector can be brought into a bad state without unsafe code. *)

From Coq Require Import List Arith Bool Lia.
From Verif.Model Require Import Prog Mem Deps State Elem Vec Excl Machine.
From Verif Require Import Client Spec Seq Lists ListSem.
From Verif.Logic Require Import Inv WP Post Specs Ops Sound Shape Clients Hist Locks Facts Complete Trace Single SingleOps Solo.
From Verif.Properties Require Import C33 Examples Growth Progress Views Slices Alone Unsafe.
Import ListNotations.
Local Arguments Nat.leb : simpl never.
Local Arguments Nat.ltb : simpl never.
Local Arguments Nat.eqb : simpl never.

Lemma rest_pan {V} (h : list (event V)) t o l m : at_rest h -> at_rest (h ++ EInv (length h) t o :: map (EAcc (length h) t) l ++ [EPan (length h) t m]).
Proof.
  intros R id t' o' [O1 O2]. rewrite existsb_app in O2. apply orb_false_iff in O2. destruct O2 as [O2 O3].
  destruct (Nat.lt_ge_cases id (length h)) as [L|L].
  - rewrite nth_error_app1 in O1 by assumption. apply (R id t' o'). split; assumption.
  - rewrite nth_error_app2 in O1 by assumption. destruct (id - length h) as [|k] eqn:Q.
    + assert (id = length h) by lia. subst id. simpl in O3. rewrite existsb_app in O3. simpl in O3. rewrite Nat.eqb_refl in O3. rewrite orb_true_r in O3. discriminate.
    + simpl in O1. destruct (Nat.lt_ge_cases k (length l)) as [Lk|Lk].
      * rewrite nth_error_app1 in O1 by (now rewrite map_length). rewrite nth_error_map in O1. destruct (nth_error l k); discriminate.
      * rewrite nth_error_app2 in O1 by (now rewrite map_length). destruct (k - _) as [|q]; simpl in O1; [discriminate|destruct q; discriminate].
Qed.

(** Counting changes nothing. *)
Lemma solo_count {V} (E : env V) t : forall k i s, match solo E t (count_pushed i k) s with SDone _ s' => s' = s | SBad _ => True | _ => False end.
Proof.
  induction k as [|k IH]; intros i s; cbn [count_pushed solo]; auto. rewrite solo_bind. unfold is_some_with_order. rewrite solo_bind. cbn [solo doo exec]. unfold with_slot.
  destruct (i <? cap s); [|exact I]. cbn [solo]. destruct (st_eqb (sst (slots s i)) SOME); [|reflexivity]. rewrite solo_bind. specialize (IH (S i) s). destruct (solo E t (count_pushed (S i) k) s); auto.
Qed.

Lemma solo_len_cap {V} (E : env V) t s n s' : solo E t vec_len s = SDone n s' -> cap s' = cap s.
Proof.
  unfold vec_len, core_capacity, core_iter_over_range. rewrite !solo_bind. cbn [solo doo exec]. rewrite !solo_bind. cbn [solo doo exec]. rewrite !solo_bind. cbn [solo doo exec]. rewrite !solo_bind. cbn [solo doo exec].
  destruct (_ && _); cbn [solo]; [|discriminate]. rewrite solo_bind. match goal with |- context [solo E t (count_pushed ?i ?k) s] => pose proof (solo_count E t k i s) as K; destruct (solo E t (count_pushed i k) s); try discriminate end.
  subst. rewrite solo_bind. cbn [solo doo exec]. intros Q. injection Q as _ <-. reflexivity.
Qed.

Section Wrap.
  Context {V : Type} (E : env V) (l0 : list V) (c0 m0 : nat) (c : cfg V).
  Hypothesis X : execution E false false l0 c0 m0 c.
  Notation h := (hist c).
  Notation a0 := (abs0 l0 m0).

  (** C36: [extend_n_items] is safe to call with every [num_items].  But in every vector at rest that has at
      least one element, some [num_items] makes it panic, and after that panic the next [push] is
      given position 0, which is in use: it would write over an element without dropping it, possibly
      while another thread is using it. *)
  Theorem C36_refuted ws t it v : at_rest h -> is_list (replay a0 h) ws -> ws <> [] -> a_max (replay a0 h) < wmod E ->
    exists n k c' m, n < wmod E /\ runs E c (LInv t (OExtendN it n) :: repeat (LStep t) k) = Next c' /\
      at_rest (hist c') /\ panicked (hist c') (length h) (length (hist c') - 1) (OExtendN it n) m /\
      resv (sh c') = 0 /\ (exists w, value (replay a0 h) 0 = Some w) /\
      runs E c' (LInv t (OPush v) :: repeat (LStep t) 4) = Fault FReinit.
  Proof.
    intros R Is Ne Lm.
    destruct (execution_world _ _ _ _ _ _ c X) as (snap & g & W). pose proof (w_gi _ _ _ _ _ _ _ _ W) as G. pose proof (gi_agree _ _ _ _ _ _ _ _ G) as A.
    pose proof (ag_len _ _ A) as Al. pose proof (ag_max _ _ A) as Am. unfold Sound.a0 in Al, Am. clear G W g A.
    destruct Is as [Il Iv]. destruct ws as [|w0 ws]; [congruence|]. clear Ne.
    assert (Hv : a_pos (replay a0 h) 0 = Has w0). { specialize (Iv 0). unfold value in Iv. destruct (a_pos (replay a0 h) 0); simpl in Iv; congruence. }
    destruct (rest_slot E l0 c0 m0 c X 0 w0 R Hv) as (Hc & w & Hs).
    pose proof (requested_fits E l0 c0 m0 c X) as Rq. pose proof (execution_len _ _ _ _ _ _ c X) as Le. rewrite Il in *. simpl in Al, Le.
    pose proof (rest_run _ _ _ _ _ _ c X R) as Rn.
    assert (Hm : 0 < maxc (sh c)).
    { destruct (execution_expl _ _ _ _ _ _ c X) as (snap' & Ex & Ls). destruct (h_good _ _ _ _ _ _ _ Ex (length h) ltac:(lia)) as [Gd _]. rewrite Ls in Gd. 
      destruct X as (OK & _). pose proof (good_cap_max E false OK _ Gd). lia. }
    set (n := wmod E - S (length ws)). set (s1 := Shared 0 (wrtn (sh c)) (cap (sh c)) (maxc (sh c)) (growing (sh c)) (slots (sh c))).
    assert (So : exists m, solo E t (op_prog E (OExtendN it n)) (sh c) = SPan m s1).
    { cbn [op_prog]. unfold fmap, extend_n_items, n_items_buffer. rewrite !solo_bind. cbn [solo doo exec]. rewrite Al.
      replace ((S (length ws) + n) mod wmod E) with 0 by (unfold n; replace (S (length ws) + (wmod E - S (length ws))) with (wmod E) by lia; rewrite Nat.mod_same; lia).
      fold s1. destruct (Nat.eqb_spec n 0) as [Q|_]; [unfold n in Q; lia|]. unfold uadd. rewrite (proj2 (Nat.ltb_ge _ _)) by (unfold n; lia). destruct (ochk E) eqn:Oc.
      - exists POverflow. reflexivity.
      - exists PMaxCap. replace ((S (length ws) + n) mod wmod E) with 0 by (unfold n; replace (S (length ws) + (wmod E - S (length ws))) with (wmod E) by lia; rewrite Nat.mod_same; lia).
        rewrite !solo_bind. cbn [chk solo]. unfold usub. change (1 <=? 0) with false. cbn iota. rewrite Oc. rewrite !solo_bind. cbn [chk solo]. rewrite !solo_bind. unfold core_maximum_capacity. cbn [solo doo exec].
        cbn [maxc s1]. rewrite (proj2 (Nat.ltb_ge _ _)) by lia. reflexivity. }
    destruct So as (m & So).
    assert (S1 : exists c1, step E c (LInv t (OExtendN it n)) = Next c1 /\ sh c1 = sh c /\ hist c1 = h ++ [EInv (length h) t (OExtendN it n)] /\ run c1 = [(t, Call (length h) (OExtendN it n) (op_prog E (OExtendN it n)))] /\ given c1 = given c).
    { eexists. cbn [step]. rewrite Rn. cbn. split; [reflexivity|]. auto. }
    destruct S1 as (c1 & S1 & S2 & S3 & S4 & S5).
    pose proof (solo_steps E t (op_prog E (OExtendN it n)) c1 (length h) (OExtendN it n)) as Sl. rewrite S4 in Sl. cbn [lookup] in Sl. rewrite Nat.eqb_refl in Sl. specialize (Sl eq_refl).
    rewrite S2, So in Sl. destruct Sl as (k & c' & T1 & T2 & T3 & T4 & l & T5).
    cbn [remove] in T3. rewrite Nat.eqb_refl in T3. cbn [remove] in T3. rewrite S3, <- app_assoc in T5. cbn [app] in T5.
    assert (Le' : length (hist c') - 1 = length h + S (length l)) by (rewrite T5, app_length; simpl; rewrite app_length, map_length; simpl; lia).
    exists n, k, c', m. split; [unfold n; lia|]. split; [cbn [runs]; rewrite S1; exact T1|]. split; [|split; [|split; [now rewrite T2|split]]].
    - rewrite T5. apply rest_pan. exact R.
    - exists t. rewrite Le', T5. split; [rewrite nth_error_app2, Nat.sub_diag by lia; reflexivity|].
      rewrite nth_error_app2 by lia. replace (length h + S (length l) - length h) with (S (length l)) by lia. cbn [nth_error]. rewrite nth_error_app2, map_length, Nat.sub_diag by (rewrite map_length; lia). reflexivity.
    - exists w0. unfold value. now rewrite Hv.
    - destruct c' as [s' rn hh gv]. cbn [sh run] in T2, T3. subst s' rn. assert (Hc' : (0 <? cap s1) = true) by (apply Nat.ltb_lt; exact Hc). assert (Hm' : (0 <? maxc s1) = true) by (apply Nat.ltb_lt; exact Hm).
      assert (Hs' : slots s1 0 = Slot SOME (Some w) None []) by exact Hs. assert (R0 : resv s1 = 0) by reflexivity. clearbody s1. clear -Hc' Hm' Hs' R0.
      assert (K : forall d d' (l : label V) ls (r : stepped V), step E d l = Next d' -> runs E d' ls = r -> runs E d (l :: ls) = r) by (intros d d' l ls r Q1 Q2; cbn [runs]; now rewrite Q1).
      cbn [repeat].
      eapply K; [reflexivity|].
      eapply K; [cbn [step run]; unfold step_thread; cbn [lookup run]; rewrite Nat.eqb_refl; cbn; reflexivity|]. unfold after. cbn -[runs]. rewrite Nat.eqb_refl, R0.
      eapply K; [cbn [step run]; unfold step_thread; cbn [lookup run]; rewrite Nat.eqb_refl; cbn; reflexivity|]. unfold after. cbn -[runs Nat.ltb]. rewrite Nat.eqb_refl, Hm'. cbn -[runs].
      destruct (cap s1) as [|p] eqn:Hp; [discriminate|].
      eapply K; [cbn [step run]; unfold step_thread; cbn [lookup run]; rewrite Nat.eqb_refl; cbn; reflexivity|]. unfold after. cbn -[runs]. rewrite Nat.eqb_refl. cbn -[runs].
      cbn [runs step]. unfold step_thread. cbn [lookup run]. rewrite Nat.eqb_refl. cbn. unfold with_slot. cbn. rewrite Hs'. cbn. reflexivity.
  Qed.


  (** The length of a vector at rest. *)
  Lemma solo_len ws t : at_rest h -> is_list (replay a0 h) ws -> exists s, solo E t (vec_len (V:=V)) (sh c) = SDone (length ws) s /\ cap s = cap (sh c).
  Proof.
    intros R I.
    pose proof (requested_fits E l0 c0 m0 c X) as Rq.
    destruct (solo_list E l0 c0 m0 c X t OLen ws R I) as (x & s' & ws' & c' & l & S1 & _ & S2 & _ & _ & S3 & _); try reflexivity.
    { repeat split; simpl; auto; discriminate. }
    { simpl. lia. }
    { now left. }
    cbn [op_prog] in S1. unfold fmap in S1. rewrite solo_bind in S1.
    destruct (solo E t vec_len (sh c)) as [n s|m s|s|f] eqn:Q; cbn [solo] in S1; try (destruct x; discriminate).
    - exists s. split; [|exact (solo_len_cap _ _ _ _ _ Q)]. destruct x as [r|m]; [|discriminate]. injection S1 as <- <-. simpl in S3. destruct S3 as [S3 _]. congruence.
    - exfalso. destruct x; [discriminate|]. simpl in S3. destruct S3. discriminate.
  Qed.

  (** C41: a range whose start lies behind its end.  With overflow checks [slice] panics. *)
  Theorem C41_checked ws t p q : at_rest h -> is_list (replay a0 h) ws -> q < p -> p <= length ws -> ochk E = true ->
    exists s, solo E t (op_prog E (OSlice (BIncl p, BExcl q))) (sh c) = SPan POverflow s.
  Proof.
    intros R I Lq Lp Oc. destruct (solo_len ws t R I) as (s & S1 & S2). exists s.
    cbn [op_prog]. unfold fmap, vec_slice. rewrite !solo_bind, S1, solo_bind. cbn [range_limits fst snd chk solo]. rewrite solo_bind. unfold usub. 
    rewrite !Nat.min_l by lia. cbn [fst snd]. rewrite (proj2 (Nat.leb_gt _ _)) by lia. rewrite Oc. reflexivity.
  Qed.

  (** Without them it returns a slice that claims almost [wmod] elements, and iterating over this
      slice, a safe call, asks the storage for elements it does not have. *)
  Theorem C41_refuted ws t p q : at_rest h -> is_list (replay a0 h) ws -> q < p -> p <= length ws -> ochk E = false -> a_max (replay a0 h) < wmod E ->
    exists s, solo E t (op_prog E (OSlice (BIncl p, BExcl q))) (sh c) = SDone (RSl (CSlice p (wmod E - (p - q)))) s /\
      length ws < wmod E - (p - q) + p /\
      solo E t (op_prog E (OSl (CSlice p (wmod E - (p - q))) SIter)) s = SBad FRange.
  Proof.
    intros R I Lq Lp Oc Lm. destruct (solo_len ws t R I) as (s & S1 & S2). exists s.
    assert (Cm : cap (sh c) < wmod E).
    { destruct (execution_world _ _ _ _ _ _ c X) as (snap & g & W). pose proof (w_gi _ _ _ _ _ _ _ _ W) as G. pose proof (gi_agree _ _ _ _ _ _ _ _ G) as A.
      pose proof (ag_max _ _ A) as Am. unfold Sound.a0 in Am. clear G W g A.
      destruct (execution_expl _ _ _ _ _ _ c X) as (snap' & Ex & Ls). destruct (h_good _ _ _ _ _ _ _ Ex (length h) ltac:(lia)) as [Gd _]. rewrite Ls in Gd.
      destruct X as (OK & _). pose proof (good_cap_max E false OK _ Gd). lia. }
    pose proof (requested_fits E l0 c0 m0 c X) as Rq. pose proof (execution_len _ _ _ _ _ _ c X) as Le. pose proof (proj1 I) as Il.
    assert (Lw : length ws < wmod E) by lia.
    split; [|split; [lia|]].
    - cbn [op_prog]. unfold fmap, vec_slice. rewrite !solo_bind, S1, solo_bind. cbn [range_limits fst snd chk solo]. rewrite solo_bind. unfold usub.
      rewrite !Nat.min_l by lia. cbn [fst snd]. rewrite (proj2 (Nat.leb_gt _ _)) by lia. rewrite Oc. cbn [chk solo]. do 3 f_equal. lia.
    - cbn [op_prog sop_prog]. unfold fmap, slice_iter, core_iter_over_range. rewrite !solo_bind. cbn [sl_a sl_len solo doo exec]. rewrite S2.
      rewrite (proj2 (Nat.leb_gt _ (cap (sh c)))) by lia. rewrite andb_false_r. reflexivity.
  Qed.
End Wrap.

(** C37: a pinned vector with an empty element, [None] at position [i], made into a
    [ConcurrentVec].  Its length counts the element, [get] finds it, but [cloned], [map], [set],
    [update] and cloning the vector panic. *)
Section Empty.
  Context {V : Type} (E : env V).

  Lemma clone_some t s i v : i < cap s -> slots s i = Slot SOME (Some v) None [] ->
    exists s', solo E t (elem_cloned i) s = SDone v s' /\ cap s' = cap s /\ forall j, slots s' j = slots s j.
  Proof.
    intros L Q. unfold elem_cloned, option_clone, option_map, spin_handle, drop_handle. rewrite !solo_bind. cbn [solo exec]. unfold with_slot. rewrite (proj2 (Nat.ltb_lt _ _) L), Q. cbn [sst st_eqb fst snd negb andb solo doo].
    rewrite solo_bind. cbn [solo doo exec]. unfold with_slot, set_slot, upd. cbn [cap slots]. rewrite (proj2 (Nat.ltb_lt _ _) L), Nat.eqb_refl. cbn [swr is_none solo]. rewrite solo_bind. cbn [solo doo exec]. unfold with_slot, set_slot, upd. cbn [cap slots sval sst srd swr].
    rewrite (proj2 (Nat.ltb_lt _ _) L), Nat.eqb_refl. cbn [sval swr is_none solo]. rewrite solo_bind. cbn [solo doo exec]. unfold with_slot, set_slot, upd. cbn [cap slots sval sst srd swr remove1].
    rewrite (proj2 (Nat.ltb_lt _ _) L), !Nat.eqb_refl. cbn [sval swr sst srd solo chk]. eexists. split; [reflexivity|]. cbn [cap slots]. split; [reflexivity|]. intros j. destruct (Nat.eqb_spec j i) as [->|]; [|reflexivity]. now rewrite Q.
  Qed.

  Lemma spin_none t s i : i < cap s -> slots s i = fresh -> solo E t (spin_handle i SOME) s = SDone false s.
  Proof. intros L Q. unfold spin_handle. cbn [solo exec]. unfold with_slot. rewrite (proj2 (Nat.ltb_lt _ _) L), Q. reflexivity. Qed.

  Lemma clone_none t s i : i < cap s -> slots s i = fresh -> solo E t (elem_cloned i) s = SPan PHasValue s.
  Proof. intros L Q. unfold elem_cloned, option_clone, option_map. rewrite !solo_bind, spin_none by assumption. reflexivity. Qed.

  Lemma clones_none t : forall k a s, a + k <= cap s ->
    (forall j, a <= j < a + k -> slots s j = fresh \/ exists v, slots s j = Slot SOME (Some v) None []) ->
    (exists j, a <= j < a + k /\ slots s j = fresh) -> exists s', solo E t (mapP elem_cloned (seq a k)) s = SPan PHasValue s'.
  Proof.
    induction k as [|k IH]; intros a s L A (j & Lj & Q); [lia|]. cbn [seq mapP]. rewrite solo_bind.
    destruct (A a ltac:(lia)) as [F|[v F]].
    - rewrite clone_none by (assumption || lia). eauto.
    - destruct (clone_some t s a v ltac:(lia) F) as (s' & S1 & S2 & S3). rewrite S1, solo_bind.
      destruct (IH (S a) s') as (s2 & S4); [lia|intros i Li; rewrite S3; apply A; lia|exists j; rewrite S3; split; [|assumption]; destruct (Nat.eq_dec j a); [subst; rewrite F in Q; discriminate|lia]|].
      rewrite S4. eauto.
  Qed.

  Theorem C37_refuted (l : list (option V)) c m i t : nth_error l i = Some None -> length l <= c ->
    let s := init_opt l c m in
    solo E t (op_prog E OLen) s = SDone (RNat (length l)) s /\
    solo E t (op_prog E (OGet i)) s = SDone (ROptElem (Some i)) s /\
    solo E t (op_prog E (OElem i ECloned)) s = SPan PHasValue s /\
    (forall f, solo E t (op_prog E (OElem i (EMap f))) s = SPan PHasValue s) /\
    (forall v, solo E t (op_prog E (OElem i (ESet v))) s = SPan PSet s) /\
    (forall f, solo E t (op_prog E (OElem i (EUpdate f))) s = SPan PUpdate s) /\
    (exists s', solo E t (op_prog E OIterCloned) s = SPan PHasValue s') /\
    to_vec s = XPanic.
  Proof.
    intros Hi Lc s. assert (Li : i < length l) by (apply nth_error_Some; congruence).
    assert (Ln : solo E t vec_len s = SDone (length l) s).
    { unfold vec_len, core_capacity, core_iter_over_range, s, init_opt. rewrite !solo_bind. cbn [solo doo exec wrtn]. rewrite !solo_bind. cbn [solo doo exec cap]. rewrite !solo_bind. cbn [solo doo exec resv]. rewrite (proj2 (Nat.leb_le _ _) Lc), !solo_bind. cbn [solo doo exec cap].
      rewrite Nat.leb_refl, (proj2 (Nat.leb_le _ _) Lc), Nat.sub_diag. cbn [andb solo count_pushed bind]. rewrite solo_bind. cbn [solo doo exec wrtn resv cap maxc growing slots]. rewrite Nat.add_0_r, Nat.max_id. reflexivity. }
    assert (Si : slots s i = fresh) by (simpl; now rewrite Hi).
    assert (Ci : i < cap s) by (simpl; lia).
    repeat split.
    - cbn [op_prog]. unfold fmap. now rewrite solo_bind, Ln.
    - cbn [op_prog]. unfold fmap, vec_get, core_get, core_capacity. rewrite !solo_bind, Ln. rewrite (proj2 (Nat.ltb_lt _ _) Li), solo_bind. cbn [solo doo exec]. now rewrite (proj2 (Nat.ltb_lt _ _) Ci).
    - cbn [op_prog eop_prog]. unfold fmap. now rewrite solo_bind, clone_none.
    - intros f. cbn [op_prog eop_prog]. unfold fmap, elem_map, option_map. now rewrite !solo_bind, spin_none.
    - intros v. cbn [op_prog eop_prog]. unfold fmap, elem_set, option_set_some. now rewrite !solo_bind, spin_none.
    - intros f. cbn [op_prog eop_prog]. unfold fmap, elem_update, option_update. now rewrite !solo_bind, spin_none.
    - cbn [op_prog]. unfold fmap, vec_iter_cloned, core_iter, core_iter_over_range. rewrite !solo_bind, Ln, !solo_bind. cbn [solo doo exec]. cbn [s init_opt cap]. rewrite (proj2 (Nat.leb_le _ _) Lc). change (0 <=? length l) with true. cbn [andb solo]. rewrite Nat.sub_0_r.
      destruct (clones_none t (length l) 0 s) as (s' & S1); [simpl; lia| |exists i; split; [lia|assumption]|].
      + intros j Lj. simpl. destruct (nth_error l j) as [[v|]|] eqn:Q; auto. right. exists v. reflexivity.
      + fold s. rewrite S1. eauto.
    - unfold to_vec, into_inner. cbn [s init_opt resv cap]. rewrite (proj2 (Nat.leb_le _ _) Lc). fold s.
      match goal with |- context [unwrap_all ?x] => assert (N : unwrap_all x = None) end; [|now rewrite N].
      assert (K : forall k (g : nat -> option V) a, a <= i < a + k -> g i = None -> unwrap_all (map g (seq a k)) = None).
      { induction k as [|k IH]; intros g a La Q; [lia|]. cbn [seq map unwrap_all]. destruct (g a) eqn:Qa; [|reflexivity]. rewrite IH; auto. destruct (Nat.eq_dec a i); [congruence|lia]. }
      apply K; [lia|]. now rewrite Si.
  Qed.
End Empty.

(** Examples: the vector [al] of C27 is one to which C36 and C41_checked apply; ... *)
Example wrap_example : at_rest (hist al) /\ is_list (replay (abs0 [5] 8) (hist al)) [4] /\ a_max (replay (abs0 [5] 8) (hist al)) < wmod ex /\ ochk ex = true.
Proof. destruct hazard_example as (R & I & _). split; [assumption|]. split; [assumption|]. split; [|reflexivity]. apply Nat.ltb_lt. vm_compute. reflexivity. Qed.
Example reinit_example : exists n k c', runs ex al (LInv 0 (OExtendN [] n) :: repeat (LStep 0) k) = Next c' /\ runs ex c' (LInv 0 (OPush 7) :: repeat (LStep 0) 4) = Fault FReinit.
Proof. eexists 999, _, _. split; [instantiate (2 := 2); vm_compute; reflexivity|vm_compute; reflexivity]. Qed.
(** ... the same vector without overflow checks, at the start; ... *)
Definition unchecked : env nat := linear_env 1000 false Nat.eqb true 1.
Example unchecked_execution : execution unchecked false false [5; 6] 2 8 (start [5; 6] 2 8).
Proof.
  assert (2 < wmod unchecked) by (apply Nat.ltb_lt; vm_compute; reflexivity).
  apply (play_execution unchecked false false [5; 6] 2 8 []); [apply C33_linear_ok|apply (C33_linear 1000 false Nat.eqb true 1 4); lia|simpl; lia|simpl; lia|reflexivity].
Qed.
Example range_example : at_rest (hist (start [5; 6] 2 8)) /\ is_list (replay (abs0 [5; 6] 8) []) [5; 6] /\
  solo unchecked 0 (op_prog unchecked (OSlice (BIncl 2, BExcl 1))) (init [5; 6] 2 8) = SDone (RSl (CSlice 2 999)) (init [5; 6] 2 8).
Proof.
  split; [apply rest_by; reflexivity|]. split; [apply (is_list_by unchecked false false [5; 6] 2 8 _ _ unchecked_execution); vm_compute; reflexivity|].
  vm_compute. reflexivity.
Qed.
(** ... a vector with an empty element. *)
Example empty_example : nth_error [Some 5; None] 1 = Some None /\
  solo ex 0 (op_prog ex (OElem 1 ECloned)) (init_opt [Some 5; None] 4 8) = SPan PHasValue (init_opt [Some 5; None] 4 8).
Proof. split; [reflexivity|]. apply (C37_refuted ex [Some 5; None] 4 8 1 0); [reflexivity|simpl; lia]. Qed.

Print Assumptions C36_refuted.
Print Assumptions C37_refuted.
Print Assumptions C41_checked.
Print Assumptions C41_refuted.
