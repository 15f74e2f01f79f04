(** * The view machine: accesses to one element, and growth. *)

From Coq Require Import List Arith Bool Lia.
From Verif.Model Require Import Prog Mem Deps State Elem Vec Excl Machine.
From Verif Require Import Client.
From Verif.RA Require Import Weak WInv WStep.
Import ListNotations.
Local Arguments Nat.leb : simpl never.
Local Arguments Nat.ltb : simpl never.
Local Arguments Nat.eqb : simpl never.
Local Arguments Nat.add : simpl never.
Local Arguments Nat.sub : simpl never.
Local Arguments Nat.max : simpl never.

Definition lock i L := Tok (t_b L) (t_n L) (t_w L) (i :: t_l L) (t_f L) (t_k L) (t_g L).

Section WSlots.
  Context {V : Type} (E : env V) (ro : bool) (EOK : env_ok E).
  Notation wmem := (wmem V).
  Notation wslot := (wslot V).
  Notation WI := (WI E ro).
  Notation good := (good E ro).
  Notation wview := (wview ro).
  Notation mle := (mle ro).
  Notation guar := (guar ro).
  Notation prog := (prog V).
  Notation step_ok := (step_ok E ro).
  Implicit Types (M : wmem) (g : nat -> wgst) (tv : view) (L : toks).

  Lemma sl_put M i x j : sl (put_slot M i x) j = if j =? i then x else sl M j.
  Proof. reflexivity. Qed.
  Lemma sl_put_same M i x : sl (put_slot M i x) i = x.
  Proof. rewrite sl_put, Nat.eqb_refl. reflexivity. Qed.
  Lemma sl_put_other M i x j : j <> i -> sl (put_slot M i x) j = sl M j.
  Proof. intros. rewrite sl_put. destruct (Nat.eqb_spec j i); congruence. Qed.

  Lemma slot_cap M g i : WI M g -> i < capv M vbot \/ (exists tv, i < capv M tv) -> i < latest (m_cap M).
  Proof. intros W [H|[tv H]]; (eapply Nat.lt_le_trans; [exact H|]); apply (latest_bound E ro); now exists g. Qed.

  Lemma put_le M i x : prefix (ws (sl M i)) (ws x) -> ww (sl M i) <= ww x ->
    (ro = true -> wv (sl M i) <> None -> ww x = ww (sl M i) /\ wv x = wv (sl M i)) -> mle M (put_slot M i x).
  Proof.
    intros H1 H2 H3. constructor; try solve [simpl; auto using prefix_refl].
    - intros j. rewrite sl_put. destruct (Nat.eqb_spec j i) as [->|]; auto using prefix_refl.
    - intros j. rewrite sl_put. destruct (Nat.eqb_spec j i) as [->|]; auto.
    - intros R j P. rewrite sl_put. destruct (Nat.eqb_spec j i) as [->|]; auto.
  Qed.

  (** effect of a change of element [i] by call [id] *)
  Lemma put_ok M g id i x s :
    WI M g -> i < latest (m_cap M) -> mle M (put_slot M i x) ->
    slotok ro (put_slot M i x) i s -> (forall m, In m (ws x) -> vok (put_slot M i x) (mview m)) ->
    g i <> GFree -> s <> GFree -> (forall j, s = GOwn j -> g i = GOwn j) ->
    (forall id', id' <> id -> (g i = GLost -> s = GLost) /\ g i <> GOwn id' /\ g i <> GWr id' /\ s <> GWr id' /\ (s = GLock id' -> g i = GLock id') /\
       (g i = GLock id' -> s = GLock id' /\ ws x = ws (sl M i) /\ ww x = ww (sl M i) /\ ro = true)) ->
    WI (put_slot M i x) (upd g i s) /\ guar id M g (put_slot M i x) (upd g i s).
  Proof.
    intros W Hi Le So Vo Gf Sf Go Ot. set (M' := put_slot M i x) in *.
    assert (Ge : forall j, upd g i s j = if j =? i then s else g j) by reflexivity.
    split.
    - destruct W. constructor; auto.
      + intros m Hm. eapply vok_le; eauto.
      + intros m Hm. destruct (wi_wrtn_v m Hm). split; [eapply vok_le; eauto|eapply pub_le; eauto].
      + intros m Hm. eapply vok_le; eauto.
      + intros k m m' H H'. destruct (wi_grown k m m' H H') as [A B]. rewrite Ge. destruct (Nat.eqb_spec (mval m) i) as [<-|]; [|auto]. split; [assumption|]. intros j Hj. auto.
      + intros j. rewrite Ge. destruct (Nat.eqb_spec j i) as [->|]; [|apply wi_free]. split; [congruence|]. intros X. destruct Gf. now apply wi_free.
      + intros j. rewrite Ge. destruct (Nat.eqb_spec j i) as [->|]; [assumption|]. apply (slotok_ext _ M); auto. now apply sl_put_other.
      + intros j m. unfold M'. rewrite sl_put. destruct (Nat.eqb_spec j i) as [->|]; [apply Vo|]. intros Hm. eapply vok_le; eauto.
      + intros j Hj. simpl in Hj. rewrite Ge. unfold M'. rewrite sl_put. destruct (Nat.eqb_spec j i) as [->|]; [lia|]. now apply wi_beyond.
      + intros j Hj. simpl in Hj. rewrite Ge. simpl. destruct (Nat.eqb_spec (latest (m_cap M)) i) as [e|]; [lia|]. now apply wi_grow.
    - split; [assumption|]. intros id' Ne. destruct (Ot id' Ne) as (O0 & O1 & O2 & O3 & O4 & O5). unfold same_for. repeat split; try (intros; simpl in *; tauto).
      + rewrite Ge. destruct (Nat.eqb_spec i0 i) as [->|]; auto.
      + rewrite Ge. destruct (Nat.eqb_spec i0 i) as [->|]; auto. intros X. tauto.
      + rewrite Ge. destruct (Nat.eqb_spec i0 i) as [->|]; auto. intros X. tauto.
      + rewrite Ge. destruct (Nat.eqb_spec i0 i) as [->|]; auto. intros X. tauto.
      + rewrite Ge. destruct (Nat.eqb_spec i0 i) as [->|]; auto.
      + rewrite Ge. destruct (Nat.eqb_spec i0 i) as [->|]; auto. intros X. tauto.
      + intros j Hj. unfold M'. rewrite sl_put. destruct (Nat.eqb_spec j i) as [->|]; [tauto|reflexivity].
      + unfold M'. rewrite sl_put. destruct (Nat.eqb_spec i0 i) as [->|]; [|reflexivity]. tauto.
      + unfold M'. rewrite sl_put. destruct (Nat.eqb_spec i0 i) as [->|]; [|reflexivity]. tauto.
      + unfold M'. rewrite sl_put. intros R. destruct (Nat.eqb_spec i0 i) as [->|]; [|reflexivity]. destruct O5 as (_ & _ & _ & X); congruence.
      + intros j Hj. rewrite Ge. destruct (Nat.eqb_spec j i) as [->|]; auto.
  Qed.

  (** the state of an element, from what a call holds *)
  Lemma held_slot M g id tv L i : WI M g -> wview M g id tv L -> In i (t_l L) ->
    g i = GLock id /\ chain ro M i /\ ends M i RESERVED (fun _ => True) /\ covers ro M tv i /\ v_st tv i = last_ts (ws (sl M i)).
  Proof.
    intros W H Hi. pose proof (proj2 (vw_lock _ _ _ _ _ _ H i) Hi) as Hg. pose proof (wi_slot _ _ _ _ W i) as S. rewrite Hg in S. destruct S.
    destruct (vw_lcov _ _ _ _ _ _ H i Hi). auto.
  Qed.
  Lemma held_cap M g id tv L i : WI M g -> wview M g id tv L -> In i (t_l L) -> i < latest (m_cap M).
  Proof.
    intros W H Hi. destruct (Nat.lt_ge_cases i (latest (m_cap M))) as [|X]; [assumption|]. destruct (wi_beyond _ _ _ _ W i X) as [_ U].
    rewrite (proj2 (vw_lock _ _ _ _ _ _ H i) Hi) in U. destruct U.
  Qed.
  Lemma vok_st M i k tv : k < length (ws (sl M i)) -> vok M tv -> vok M (set_st i k tv).
  Proof. intros H (A & B & C & D & F). repeat split; auto. intros j. simpl. unfold upd. destruct (Nat.eqb_spec j i) as [->|]; auto. Qed.
  Lemma vok_w M i k tv : k <= ww (sl M i) -> vok M tv -> vok M (set_w i k tv).
  Proof. intros H (A & B & C & D & F). repeat split; auto. intros j. simpl. unfold upd. destruct (Nat.eqb_spec j i) as [->|]; auto. Qed.
  Lemma vok_r M i k tv : vok M tv -> vok M (add_r i k tv).
  Proof. intros (A & B & C & D & F). repeat split; auto. Qed.

  Lemma ends_last M i (x : st) P : ends M i x P -> exists l m, ws (sl M i) = l ++ [m] /\ mval m = x /\ P m.
  Proof.
    intros (m & Q & H). apply nth_error_split in Q. destruct Q as (l1 & l2 & Q & Hl). exists l1, m. split; [|assumption].
    unfold last_ts in Hl. rewrite Q, app_length in Hl. simpl in Hl. destruct l2 as [|y l2]; [assumption|simpl in Hl; lia].
  Qed.

  (** how the chain of messages may be continued *)
  Lemma chain_snoc M i m' M' :
    chain ro M i -> sl M' i = WSlot (ws (sl M i) ++ [m']) (ww (sl M i)) (wr (sl M i)) (wv (sl M i)) ->
    mval m' <> NONE -> (forall l m, ws (sl M i) = l ++ [m] -> mval m = SOME -> mrmw m' = true) -> (ro = true -> v_w (mview m') i = ww (sl M i)) -> chain ro M' i.
  Proof.
    intros [A B C D] H N R O. constructor; rewrite H; cbn [ws ww wv].
    - intros j k x y Hjk Hx Hy Nx. apply nth_snoc in Hx, Hy. destruct Hy as [Hy|[-> ->]]; [|assumption]. destruct Hx as [Hx|[-> ->]]; [exact (A j k x y Hjk Hx Hy Nx)|].
      assert (k < length (ws (sl M i))) by (apply nth_error_Some; congruence). lia.
    - intros k x y Hx Sx Hy. apply nth_snoc in Hx, Hy. destruct Hx as [Hx|[-> ->]].
      + destruct Hy as [Hy|[e ->]]; [exact (B k x y Hx Sx Hy)|]. apply nth_error_split in Hx. destruct Hx as (l1 & l2 & Q & Hl). apply (R l1 x); [|assumption].
        rewrite Q, app_length in e. simpl in e. destruct l2; [assumption|simpl in e; lia].
      + destruct Hy as [Hy|[e ->]]; [|lia]. assert (S (length (ws (sl M i))) < length (ws (sl M i))) by (apply nth_error_Some; congruence). lia.
    - intros r m Hm Nm. apply in_app_or in Hm. destruct Hm as [Hm|[<-|[]]]; auto.
    - assumption.
  Qed.
  Lemma chain_same M i M' :
    chain ro M i -> ws (sl M' i) = ws (sl M i) -> (ro = true -> ww (sl M' i) = ww (sl M i)) -> (exists v, wv (sl M' i) = Some v) -> chain ro M' i.
  Proof. intros [A B C D] H W X. constructor; rewrite ?H; auto. intros R. rewrite (W R). auto. Qed.

  (** taking the handle *)
  Lemma do_cas id i again L M0 tv (K : bool * st -> toks -> wmem -> view -> Prop) :
    i < capv M0 tv -> vok M0 tv -> again (true, SOME) = false ->
    (forall M tv', mle M0 M -> good M -> vle tv tv' -> vok M tv' -> ~ In i (t_l L) -> seen_some M tv' i -> K (true, SOME) (lock i L) M tv') ->
    (forall M tv' x, mle M0 M -> good M -> vle tv tv' -> vok M tv' -> x <> SOME -> (seen_some M0 tv i -> x <> NONE) ->
        again (false, x) = true \/ (again (false, x) = false /\ K (false, x) L M tv')) ->
    step_ok id (CasSt i SOME RESERVED) again L M0 tv K.
  Proof.
    intros Hi O0 Ag HT HF M g k H1 H2 H3 _. cbn [wexec]. pose proof (vw_ok _ _ _ _ _ _ H3) as O. assert (G : good M) by now exists g. unfold with_wslot.
    rewrite (capv_le _ _ _ _ H1 O0), (proj2 (Nat.ltb_lt _ _) Hi). fold (sl M i).
    destruct (nth_error (ws (sl M i)) k) as [m|] eqn:Q; [|exact I]. destruct (Nat.leb_spec (v_st tv i) k) as [Hk|]; [|exact I].
    assert (Hl : k < length (ws (sl M i))) by (apply nth_error_Some; congruence).
    assert (Im : In m (ws (sl M i))) by (eapply nth_error_In; eauto).
    assert (Ov : vok M (mview m)) by (eapply (wi_slot_v _ _ _ _ H2); eauto).
    assert (Hc : i < latest (m_cap M)).
    { apply (slot_cap M g); [assumption|]. right. exists tv. now rewrite (capv_le _ _ _ _ H1 O0). }
    destruct (st_eqb_spec (mval m) SOME) as [e|n].
    - assert (P : published M i) by (exists k, m; split; [assumption|congruence]).
      pose proof (published_chain _ _ _ _ i H2 P) as Ch.
      destruct (nth_error (ws (sl M i)) (S k)) as [m'|] eqn:Q'; [now rewrite (ch_rmw _ _ _ Ch k m m' Q e Q')|].
      assert (Lk : length (ws (sl M i)) = S k) by (apply nth_error_None in Q'; lia).
      assert (Hla : last_ts (ws (sl M i)) = k) by (unfold last_ts; lia).
      assert (Hg : g i = GHas).
      { pose proof (wi_slot _ _ _ _ H2 i) as S. destruct (g i) as [|j|j| | |j]; simpl in S; try reflexivity; exfalso.
        1-2: rewrite S in Q; destruct k as [|[|k]]; [injection Q as <-; discriminate|discriminate|discriminate].
        - destruct S as [v S]. rewrite S in Q; destruct k as [|[|k]]; [injection Q as <-; discriminate|discriminate|discriminate].
        - rewrite S in Q; destruct k as [|[|k]]; [injection Q as <-; discriminate|discriminate|discriminate].
        - destruct S as [_ (m' & S & X & _)]. rewrite Hla, Q in S. injection S as <-. congruence. }
      assert (Cv : covers ro M (mview m) i).
      { pose proof (wi_slot _ _ _ _ H2 i) as S. rewrite Hg in S. destruct S as [_ (m' & S & X & Y)]. rewrite Hla, Q in S. injection S as <-. exact Y. }
      right. rewrite e. split; [assumption|]. cbn [acq acquires]. set (x' := WSlot _ _ _ _). set (M' := put_slot M i x'). set (tv' := vjoin _ _).
      assert (Le : mle M M') by (apply put_le; simpl; auto using prefix_app).
      assert (Sl : sl M' i = x') by apply sl_put_same.
      assert (O1 : vok M' (set_st i (S k) tv)).
      { apply vok_st; [rewrite Sl; simpl; rewrite app_length; simpl; lia|eapply vok_le; eauto]. }
      assert (O2 : vok M' tv') by (apply vok_join; [assumption|eapply vok_le; eauto]).
      assert (L2 : vle tv tv') by (eapply vle_trans; [apply vle_set_st; instantiate (1 := S k); instantiate (1 := i); lia|apply vle_join_l]).
      assert (Ch' : chain ro M' i).
      { eapply chain_snoc; [exact Ch|exact Sl| | |]; simpl; [discriminate|auto|]. intros _. apply Cv. }
      assert (Cv' : covers ro M' tv' i /\ v_st tv' i = last_ts (ws (sl M' i))).
      { rewrite Sl. unfold covers. rewrite Sl. cbn [ws ww wr x']. rewrite last_ts_snoc. destruct Cv as [C1 C2]. unfold tv'. simpl. unfold upd. rewrite Nat.eqb_refl.
        destruct O as (_ & _ & _ & _ & F). destruct Ov as (_ & _ & _ & D & _). specialize (F i). specialize (D i). repeat split; try lia.
        intros R r Hr. rewrite C2 by auto. apply orb_true_r. }
      destruct (put_ok M g id i x' (GLock id)) as [W' Gu]; auto; try congruence.
      + split; [assumption|]. unfold ends. fold M'. eexists. rewrite Sl. cbn [ws x']. rewrite last_ts_snoc, nth_last. split; [reflexivity|]. split; [reflexivity|exact I].
      + intros y Hy. apply in_app_or in Hy. destruct Hy as [Hy|[<-|[]]]; [eapply vok_le; [exact Le|]; eapply (wi_slot_v _ _ _ _ H2); eauto|]. simpl. eapply vok_le; eauto.
      + rewrite Hg. intros id' Ne. repeat split; congruence.
      + fold M' in W', Gu. assert (Ni : ~ In i (t_l L)).
        { intros X. apply (vw_lock _ _ _ _ _ _ H3) in X. congruence. }
        exists (upd g i (GLock id)), (lock i L). split; [assumption|]. split; [|split; [assumption|split; [assumption|]]].
        * assert (Ge : forall j, upd g i (GLock id) j = if j =? i then GLock id else g j) by reflexivity.
          destruct H3. constructor; auto.
          -- intros j. rewrite Ge. destruct (Nat.eqb_spec j i) as [->|]; [|apply vw_own]. cbn [lock t_b t_n]. rewrite <- vw_own, Hg. split; discriminate.
          -- intros j. rewrite Ge. destruct (Nat.eqb_spec j i) as [->|]; [|apply vw_wr]. cbn [lock t_w]. rewrite <- vw_wr, Hg. split; discriminate.
          -- intros j. rewrite Ge. cbn [lock t_l]. destruct (Nat.eqb_spec j i) as [->|]; [split; intros; [now left|reflexivity]|]. rewrite vw_lock. split; [now right|]. intros [X|X]; [congruence|assumption].
          -- intros j Hj. cbn [lock t_w] in Hj. assert (j <> i) by (intros ->; apply vw_wr in Hj; congruence). unfold M'. rewrite sl_put_other by assumption.
             specialize (vw_wcov j Hj). destruct L2 as (_ & _ & _ & _ & F & _). destruct O2 as (_ & _ & _ & _ & F'). specialize (F j). specialize (F' j). unfold M' in F'. rewrite sl_put_other in F' by assumption. lia.
          -- intros j Hj. cbn [lock t_l] in Hj. destruct (Nat.eq_dec j i) as [->|Ne]; [assumption|]. destruct Hj as [->|Hj]; [congruence|].
             destruct (vw_lcov j Hj) as [[C1 C2] C3]. unfold covers, M'. rewrite sl_put_other by assumption.
             destruct L2 as (_ & _ & _ & F1 & F2 & F3). destruct O2 as (_ & _ & _ & F1' & F2'). specialize (F1 j). specialize (F2 j). specialize (F1' j). specialize (F2' j). unfold M' in F1', F2'. rewrite sl_put_other in F1', F2' by assumption.
             unfold last_ts in *. repeat split; try lia. intros R r Hr. auto.
          -- intros X. destruct (vw_k X) as [A B]. split; [|assumption]. destruct L2 as (_ & _ & F & _). destruct O2 as (_ & _ & F' & _). cbn [M' put_slot m_cap] in *. unfold last_ts in *. lia.
        * apply HT; auto; [eapply mle_trans; eauto|now exists (upd g i (GLock id))|]. destruct Cv' as [_ C]. exists (Msg RESERVED (mview m) true id).
          rewrite C. rewrite Sl. cbn [ws x']. rewrite last_ts_snoc, nth_last. split; [reflexivity|discriminate].
    - assert (O1 : vok M (set_st i k tv)) by now apply vok_st.
      assert (L1 : vle tv (set_st i k tv)) by now apply vle_set_st.
      destruct (HF M (set_st i k tv) (mval m)) as [A|[A B]]; auto.
      { intros S. pose proof (seen_some_up E ro _ _ _ _ _ H1 (vle_refl _) G O S) as (m0 & Q0 & N0).
        exact (ch_some _ _ _ (published_chain _ _ _ _ i H2 ltac:(now exists (v_st tv i), m0)) _ _ _ _ Hk Q0 Q N0). }
      right. split; [assumption|]. exists g, L. refine (conj H2 (conj _ (conj (guar_refl _ _ _ _) (conj L1 B)))). eapply wview_up; eauto.
  Qed.

  (** the value, behind the handle or, in a vector that is only grown and read, after it was published *)
  Definition rdok L M tv i : Prop := In i (t_l L) \/ (ro = true /\ seen_some M tv i /\ v_w tv i = ww (sl M i) /\ wv (sl M i) <> None).
  Lemma rdok_now M0 L M g id tv i : mle M0 M -> WI M g -> wview M g id tv L -> rdok L M0 tv i -> vok M0 tv ->
    v_w tv i = ww (sl M i) /\ chain ro M i /\ (g i = GLock id \/ (ro = true /\ (g i = GHas \/ exists j, g i = GLock j))).
  Proof.
    intros H1 H2 H3 [H|(R & S & H & N0)] O0.
    - destruct (held_slot _ _ _ _ _ _ H2 H3 H) as (A & B & C & [D _] & _). auto.
    - pose proof (seen_published _ _ _ S) as P0. pose proof (published_le _ _ _ _ H1 P0) as P. destruct (le_ro _ _ _ H1 R i N0) as [X _].
      split; [congruence|]. split; [eapply published_chain; eauto|]. right. split; [assumption|].
      pose proof (wi_slot _ _ _ _ H2 i) as Sl. destruct P as (k & m & Q & N). destruct (g i) as [|j|j| | |j]; simpl in Sl; eauto; exfalso.
      1-2: rewrite Sl in Q; destruct k as [|[|k]]; [injection Q as <-; now apply N|discriminate|discriminate].
      + destruct Sl as [v Sl]. rewrite Sl in Q; destruct k as [|[|k]]; [injection Q as <-; now apply N|discriminate|discriminate].
      + rewrite Sl in Q; destruct k as [|[|k]]; [injection Q as <-; now apply N|discriminate|discriminate].
  Qed.
  Lemma do_rd_beg id i L M0 tv (K : unit -> toks -> wmem -> view -> Prop) :
    i < capv M0 tv -> vok M0 tv -> rdok L M0 tv i -> (forall M, mle M0 M -> good M -> vok M tv -> K tt L M tv) ->
    step_ok id (RdBeg i) (fun _ => false) L M0 tv K.
  Proof.
    intros Hi O0 H HK. apply step_read. intros M g k H1 H2 H3. cbn [wexec]. unfold with_wslot.
    rewrite (capv_le _ _ _ _ H1 O0), (proj2 (Nat.ltb_lt _ _) Hi). fold (sl M i). unfold may_read.
    destruct (rdok_now _ _ _ _ _ _ _ H1 H2 H3 H O0) as (A & _). rewrite A, Nat.eqb_refl. right.
    pose proof (vw_ok _ _ _ _ _ _ H3) as O. refine (conj eq_refl (conj eq_refl (conj (vle_refl _) (conj O _)))). apply HK; auto. now exists g.
  Qed.
  Lemma do_rd_end id i L M0 tv (K : V -> toks -> wmem -> view -> Prop) :
    i < capv M0 tv -> vok M0 tv -> rdok L M0 tv i ->
    (forall v M tv', mle M0 M -> good M -> vle tv tv' -> vok M tv' -> wv (sl M i) = Some v -> K v L M tv') ->
    step_ok id (RdEnd i) (fun _ => false) L M0 tv K.
  Proof.
    intros Hi O0 H HK M g k H1 H2 H3 _. cbn [wexec]. unfold with_wslot.
    assert (Hc : i < latest (m_cap M)).
    { apply (slot_cap M g); [assumption|]. right. exists tv. now rewrite (capv_le _ _ _ _ H1 O0). }
    rewrite (capv_le _ _ _ _ H1 O0), (proj2 (Nat.ltb_lt _ _) Hi). fold (sl M i). unfold may_read.
    destruct (rdok_now _ _ _ _ _ _ _ H1 H2 H3 H O0) as (A & Ch & Hg). rewrite A, Nat.eqb_refl. destruct (ch_val _ _ _ Ch) as [v Hv]. rewrite Hv. right. split; [reflexivity|].
    pose proof (vw_ok _ _ _ _ _ _ H3) as O. set (x' := WSlot _ _ _ _). set (M' := put_slot M i x'). set (tv' := add_r _ _ _).
    assert (Le : mle M M') by (apply put_le; simpl; auto using prefix_refl).
    assert (Sl : sl M' i = x') by apply sl_put_same.
    assert (O2 : vok M' tv') by (apply vok_r; eapply vok_le; eauto).
    assert (L2 : vle tv tv') by apply vle_add_r.
    assert (Ch' : chain ro M' i) by (eapply chain_same; [exact Ch| | |]; rewrite Sl; simpl; eauto).
    destruct (put_ok M g id i x' (g i)) as [W' Gu]; auto.
    + pose proof (wi_slot _ _ _ _ H2 i) as S. destruct Hg as [Hg|(R & [Hg|[j Hg]])]; rewrite Hg in *; (split; [assumption|]); unfold ends; destruct S as [_ (m & S1 & S2 & S3)];
        exists m; fold M'; rewrite Sl; cbn [ws x']; auto. split; [assumption|]. split; [assumption|]. destruct S3 as [S3 S4]. unfold covers. rewrite Sl. split; [assumption|]. intros X. congruence.
    + intros m Hm. eapply vok_le; [exact Le|]. exact (wi_slot_v _ _ _ _ H2 i m Hm).
    + destruct Hg as [Hg|(R & [Hg|[j Hg]])]; rewrite Hg; discriminate.
    + destruct Hg as [Hg|(R & [Hg|[j Hg]])]; rewrite Hg; discriminate.
    + intros id' Ne. destruct Hg as [Hg|(R & [Hg|[j Hg]])]; rewrite Hg; repeat split; try congruence.
    + fold M' in W', Gu. assert (Ge : forall j, upd g i (g i) j = g j).
      { intros j. unfold upd. destruct (Nat.eqb_spec j i) as [->|]; reflexivity. }
      exists (upd g i (g i)), L. split; [assumption|]. split; [|split; [assumption|split; [assumption|]]].
      * destruct H3. constructor; auto; try (intros j; rewrite Ge; auto).
        -- intros j Hj. unfold M'. rewrite sl_put. destruct (Nat.eqb_spec j i) as [->|]; [exact A|exact (vw_wcov j Hj)].
        -- intros j Hj. destruct (vw_lcov j Hj) as [[C1 C2] C3]. unfold covers, M'. rewrite sl_put. destruct (Nat.eqb_spec j i) as [->|]; [|repeat split; auto; intros R r Hr; simpl; unfold upd; destruct (Nat.eqb_spec j i); auto; congruence].
           cbn [ws ww wr x']. repeat split; auto. intros R r Hr. simpl. unfold upd. rewrite Nat.eqb_refl. destruct (Nat.eqb_spec r (wr (sl M i))); [reflexivity|]. simpl. apply C2; auto. lia.
      * apply HK; auto; [eapply mle_trans; eauto|now exists (upd g i (g i))|]. rewrite Sl. reflexivity.
  Qed.
  Lemma may_write_ok M tv i : ro = false -> covers ro M tv i -> may_write tv i (sl M i) = true.
  Proof.
    intros R [A B]. unfold may_write. rewrite A, Nat.eqb_refl. simpl. apply forallb_forall. intros r Hr. apply in_seq in Hr. apply B; auto. lia.
  Qed.
  Lemma do_wr_beg id i L M0 tv (K : unit -> toks -> wmem -> view -> Prop) :
    i < capv M0 tv -> vok M0 tv -> In i (t_l L) -> ro = false -> (forall M, mle M0 M -> good M -> vok M tv -> K tt L M tv) ->
    step_ok id (WrBeg i) (fun _ => false) L M0 tv K.
  Proof.
    intros Hi O0 H R HK. apply step_read. intros M g k H1 H2 H3. cbn [wexec]. unfold with_wslot.
    rewrite (capv_le _ _ _ _ H1 O0), (proj2 (Nat.ltb_lt _ _) Hi). fold (sl M i).
    destruct (held_slot _ _ _ _ _ _ H2 H3 H) as (A & B & C & D & _). rewrite may_write_ok by assumption. right.
    pose proof (vw_ok _ _ _ _ _ _ H3) as O. refine (conj eq_refl (conj eq_refl (conj (vle_refl _) (conj O _)))). apply HK; auto. now exists g.
  Qed.

  (** a write behind the handle *)
  Lemma write_ok M g id i L tv w :
    WI M g -> wview M g id tv L -> In i (t_l L) -> ro = false ->
    let M' := put_slot M i (WSlot (ws (sl M i)) (S (ww (sl M i))) (wr (sl M i)) (Some w)) in
    let tv' := set_w i (S (ww (sl M i))) tv in
    exists g', WI M' g' /\ wview M' g' id tv' L /\ guar id M g M' g' /\ vle tv tv'.
  Proof.
    intros H2 H3 Hi R. cbv zeta. set (x' := WSlot _ _ _ _). set (M' := put_slot M i x'). set (tv' := set_w _ _ _).
    destruct (held_slot _ _ _ _ _ _ H2 H3 Hi) as (Hg & Ch & En & [C1 C2] & C3). pose proof (vw_ok _ _ _ _ _ _ H3) as O.
    assert (Le : mle M M') by (apply put_le; simpl; auto using prefix_refl; congruence).
    assert (Sl : sl M' i = x') by apply sl_put_same.
    assert (O2 : vok M' tv') by (apply vok_w; [rewrite Sl; simpl; lia|eapply vok_le; eauto]).
    assert (L2 : vle tv tv') by (apply vle_set_w; lia).
    assert (Ch' : chain ro M' i) by (eapply chain_same; [exact Ch| | |]; rewrite Sl; simpl; eauto; congruence).
    destruct (put_ok M g id i x' (GLock id)) as [W' Gu]; auto.
    - eapply held_cap; eauto.
    - split; [assumption|]. unfold ends. fold M'. destruct En as (m & S1 & S2 & _). exists m. rewrite Sl. auto.
    - intros m Hm. eapply vok_le; [exact Le|]. exact (wi_slot_v _ _ _ _ H2 i m Hm).
    - congruence.
    - congruence.
    - congruence.
    - rewrite Hg. intros id' Ne. repeat split; congruence.
    - assert (Ge : forall j, upd g i (GLock id) j = g j).
      { intros j. unfold upd. destruct (Nat.eqb_spec j i) as [->|]; congruence. }
      exists (upd g i (GLock id)). split; [assumption|]. split; [|split; assumption].
      destruct H3. constructor; auto; try (intros j; rewrite Ge; auto).
      + intros j Hj. assert (j <> i) by (intros ->; apply vw_wr in Hj; congruence). unfold M', tv'. rewrite sl_put_other by assumption. simpl. unfold upd. destruct (Nat.eqb_spec j i); [congruence|auto].
      + intros j Hj. destruct (vw_lcov j Hj) as [[D1 D2] D3]. unfold covers, M', tv'. rewrite sl_put. simpl. unfold upd. destruct (Nat.eqb_spec j i) as [->|]; [|auto].
        cbn [ws ww wr x']. auto.
  Qed.
  Lemma do_wr_end id i f L M0 tv (K : V -> toks -> wmem -> view -> Prop) :
    i < capv M0 tv -> vok M0 tv -> In i (t_l L) -> ro = false ->
    (forall v M tv', mle M0 M -> good M -> vle tv tv' -> vok M tv' -> K v L M tv') ->
    step_ok id (WrEnd i f) (fun _ => false) L M0 tv K.
  Proof.
    intros Hi O0 H R HK M g k H1 H2 H3 _. cbn [wexec]. unfold with_wslot. rewrite (capv_le _ _ _ _ H1 O0), (proj2 (Nat.ltb_lt _ _) Hi). fold (sl M i).
    destruct (held_slot _ _ _ _ _ _ H2 H3 H) as (Hg & Ch & En & C & C3). rewrite may_write_ok by assumption. destruct (ch_val _ _ _ Ch) as [v Hv]. rewrite Hv. right. split; [reflexivity|].
    destruct (write_ok M g id i L tv (f v) H2 H3 H R) as (g' & A & B & D & F). exists g', L. refine (conj A (conj B (conj D (conj F _)))).
    apply HK; auto; [eapply mle_trans; [eassumption|apply D]|now exists g'|apply B].
  Qed.
  Lemma guar_trans id M g M1 g1 M2 g2 : guar id M g M1 g1 -> guar id M1 g1 M2 g2 -> guar id M g M2 g2.
  Proof.
    intros [A1 A2] [B1 B2]. split; [eapply mle_trans; eauto|]. intros id' Ne. destruct (A2 id' Ne) as (S1 & S2 & S3 & S4 & S5 & S6 & S7 & S8 & S9). destruct (B2 id' Ne) as (T1 & T2 & T3 & T4 & T5 & T6 & T7 & T8 & T9).
    unfold same_for. split; [|split; [|split; [|split; [|split; [|split; [|split; [|split]]]]]]].
    - intros i. rewrite T1. auto.
    - intros i. rewrite T2. auto.
    - intros i. rewrite T3. auto.
    - intros i Hi. rewrite T4; [auto|]. rewrite S1, S2. assumption.
    - intros i Hi. destruct (S5 i Hi) as (X & Y & Z). destruct (T5 i) as (X' & Y' & Z'); [now rewrite S3|]. repeat split; try congruence. intros R. rewrite Z', Z; auto.
    - rewrite T6. auto.
    - intros H. rewrite T7; [auto|]. rewrite (S7 H). now apply S1.
    - auto.
    - auto.
  Qed.
  Lemma do_swap id i j L M0 tv (K : unit -> toks -> wmem -> view -> Prop) :
    i < capv M0 tv -> j < capv M0 tv -> vok M0 tv -> In i (t_l L) -> In j (t_l L) -> i <> j -> ro = false ->
    (forall M tv', mle M0 M -> good M -> vle tv tv' -> vok M tv' -> K tt L M tv') ->
    step_ok id (SwapEnd i j) (fun _ => false) L M0 tv K.
  Proof.
    intros Hi Hj O0 H H' Ne R HK M g k H1 H2 H3 _. cbn [wexec]. unfold with_wslot. rewrite (capv_le _ _ _ _ H1 O0), (proj2 (Nat.ltb_lt _ _) Hi), (proj2 (Nat.ltb_lt _ _) Hj). fold (sl M i). fold (sl M j).
    destruct (held_slot _ _ _ _ _ _ H2 H3 H) as (Hg & Ch & En & C & C3). destruct (held_slot _ _ _ _ _ _ H2 H3 H') as (Hg' & Ch' & En' & C' & C3').
    rewrite !may_write_ok by assumption. destruct (Nat.eqb_spec i j); [congruence|]. simpl. destruct (ch_val _ _ _ Ch) as [v Hv], (ch_val _ _ _ Ch') as [v' Hv']. rewrite Hv, Hv'. right. split; [reflexivity|].
    destruct (write_ok M g id i L tv v' H2 H3 H R) as (g1 & A & B & D & F). cbv zeta in *.
    set (M1 := put_slot M i _) in *. destruct (write_ok M1 g1 id j L _ v A B H' R) as (g2 & A' & B' & D' & F'). cbv zeta in *.
    assert (Sj : sl M1 j = sl M j) by (unfold M1; apply sl_put_other; congruence). rewrite Sj in *.
    exists g2, L. assert (Gu : guar id M g _ g2) by (eapply guar_trans; eauto). refine (conj A' (conj B' (conj Gu (conj (vle_trans _ _ _ F F') _)))).
    apply HK; [eapply mle_trans; [eassumption|apply Gu]|now exists g2|exact (vle_trans _ _ _ F F')|apply B'].
  Qed.

  (** giving the handle back *)
  Lemma do_unlock id i L M0 tv (K : unit -> toks -> wmem -> view -> Prop) :
    i < capv M0 tv -> vok M0 tv -> ~ In i (t_l L) -> (forall M tv', mle M0 M -> good M -> vle tv tv' -> vok M tv' -> K tt L M tv') ->
    step_ok id (StoreSt i SOME) (fun _ => false) (lock i L) M0 tv K.
  Proof.
    intros Hi O0 Ni HK M g k H1 H2 H3 _. cbn [wexec]. unfold with_wslot. rewrite (capv_le _ _ _ _ H1 O0), (proj2 (Nat.ltb_lt _ _) Hi). fold (sl M i).
    assert (Il : In i (t_l (lock i L))) by now left. pose proof (held_cap _ _ _ _ _ _ H2 H3 Il) as Hc.
    destruct (held_slot _ _ _ _ _ _ H2 H3 Il) as (Hg & Ch & En & C & C3). destruct (ch_val _ _ _ Ch) as [v Hv]. rewrite C3, Nat.eqb_refl. rewrite Hv.
    destruct En as (m & S1 & S2 & _). rewrite S1. right. split; [reflexivity|]. rewrite <- Hv. pose proof (vw_ok _ _ _ _ _ _ H3) as O.
    set (tv' := set_st _ _ _). set (x' := WSlot _ _ _ _). set (M' := put_slot M i x').
    assert (Le : mle M M') by (apply put_le; simpl; auto using prefix_app).
    assert (Sl : sl M' i = x') by apply sl_put_same.
    assert (O2 : vok M' tv') by (apply vok_st; [rewrite Sl; simpl; rewrite app_length; simpl; lia|eapply vok_le; eauto]).
    assert (L2 : vle tv tv') by (apply vle_set_st; rewrite C3; unfold last_ts; lia).
    assert (Ch' : chain ro M' i).
    { eapply chain_snoc; [exact Ch|exact Sl| | |]; simpl; [discriminate| |intros _; apply C]. intros l m' X Y. exfalso. unfold last_ts in S1. rewrite X, app_length in S1. simpl in S1.
      replace (length l + 1 - 1) with (length l) in S1 by lia. rewrite nth_last in S1. injection S1 as ->. congruence. }
    destruct (put_ok M g id i x' GHas) as [W' Gu]; auto; try congruence.
    - split; [assumption|]. unfold ends. fold M'. eexists. rewrite Sl. cbn [ws x']. rewrite last_ts_snoc, nth_last. split; [reflexivity|]. split; [reflexivity|]. unfold covers. rewrite Sl. exact C.
    - intros y Hy. apply in_app_or in Hy. destruct Hy as [Hy|[<-|[]]]; [|assumption]. eapply vok_le; [exact Le|]. eapply (wi_slot_v _ _ _ _ H2); eauto.
    - rewrite Hg. intros id' Ne. repeat split; congruence.
    - fold M' in W', Gu. assert (Ge : forall j, upd g i GHas j = if j =? i then GHas else g j) by reflexivity.
      exists (upd g i GHas), L. split; [assumption|]. split; [|split; [assumption|split; [assumption|]]].
      + destruct H3. constructor; auto.
        * intros j. rewrite Ge. destruct (Nat.eqb_spec j i) as [->|]; [|apply vw_own]. specialize (vw_own i). cbn [lock t_b t_n] in vw_own. rewrite <- vw_own, Hg. split; discriminate.
        * intros j. rewrite Ge. destruct (Nat.eqb_spec j i) as [->|]; [|apply vw_wr]. specialize (vw_wr i). cbn [lock t_w] in vw_wr. rewrite <- vw_wr, Hg. split; discriminate.
        * intros j. rewrite Ge. destruct (Nat.eqb_spec j i) as [->|]; [split; [discriminate|intros; tauto]|]. rewrite vw_lock. cbn [lock t_l]. simpl. intuition congruence.
        * intros j Hj. assert (j <> i) by (intros ->; apply vw_wr in Hj; congruence). unfold M', tv'. rewrite sl_put_other by assumption. simpl. apply vw_wcov. exact Hj.
        * intros j Hj. assert (j <> i) by congruence. destruct (vw_lcov j (or_intror Hj)) as [[D1 D2] D3]. unfold covers, M', tv'. rewrite sl_put_other by assumption. simpl. unfold upd. destruct (Nat.eqb_spec j i); [congruence|auto].
      + apply HK; auto; [eapply mle_trans; eauto|now exists (upd g i GHas)].
  Qed.

  (** ** Writing a new element *)
  Lemma own_slot M g id tv L i : WI M g -> wview M g id tv L -> t_b L <= i < t_b L + t_n L -> g i = GOwn id /\ sl M i = wfresh.
  Proof. intros W H Hi. pose proof (proj2 (vw_own _ _ _ _ _ _ H i) Hi) as Hg. pose proof (wi_slot _ _ _ _ W i) as S. rewrite Hg in S. auto. Qed.
  Lemma do_init_beg id i L M0 tv (K : unit -> toks -> wmem -> view -> Prop) :
    i < capv M0 tv -> vok M0 tv -> t_b L <= i < t_b L + t_n L -> (forall M, mle M0 M -> good M -> vok M tv -> K tt L M tv) ->
    step_ok id (InitBeg i) (fun _ => false) L M0 tv K.
  Proof.
    intros Hi O0 H HK. apply step_read. intros M g k H1 H2 H3. cbn [wexec]. unfold with_wslot.
    rewrite (capv_le _ _ _ _ H1 O0), (proj2 (Nat.ltb_lt _ _) Hi). fold (sl M i).
    pose proof (vw_ok _ _ _ _ _ _ H3) as O. destruct (own_slot _ _ _ _ _ _ H2 H3 H) as [_ S]. destruct O as (O1 & O2 & O3 & O4 & O5). pose proof (O5 i) as X. rewrite S in *. cbn in X. cbn. unfold may_write. cbn [ww wr wfresh].
    assert (v_w tv i = 0) as -> by lia. right. refine (conj eq_refl (conj eq_refl (conj (vle_refl _) (conj _ _)))); [repeat split; auto|]. apply HK; auto; [now exists g|repeat split; auto].
  Qed.
  Definition wrote i L := Tok (S i) (t_n L - 1) (Some i) (t_l L) (t_f L) (t_k L) (t_g L).
  Lemma do_init_end id i v L M0 tv (K : unit -> toks -> wmem -> view -> Prop) :
    i < capv M0 tv -> vok M0 tv -> t_b L = i -> 0 < t_n L -> t_w L = None -> t_k L = false ->
    (forall M tv', mle M0 M -> good M -> vle tv tv' -> vok M tv' -> wv (sl M i) = Some v -> K tt (wrote i L) M tv') ->
    step_ok id (InitEnd i v) (fun _ => false) L M0 tv K.
  Proof.
    intros Hi O0 Hb Hn Hw Hk HK M g k H1 H2 H3 _. cbn [wexec]. unfold with_wslot.
    assert (Hc : i < latest (m_cap M)).
    { apply (slot_cap M g); [assumption|]. right. exists tv. now rewrite (capv_le _ _ _ _ H1 O0). }
    rewrite (capv_le _ _ _ _ H1 O0), (proj2 (Nat.ltb_lt _ _) Hi). fold (sl M i).
    pose proof (vw_ok _ _ _ _ _ _ H3) as O. destruct (own_slot M g id tv L i H2 H3 ltac:(lia)) as [Hg S]. pose proof O as (_ & _ & _ & _ & X). specialize (X i). rewrite S in *. cbn in X.
    assert (Z : v_w tv i = 0) by lia. unfold may_write. cbn [ww wr ws wfresh]. rewrite Z. cbn [seq forallb Nat.eqb andb]. right. split; [reflexivity|].
    set (x' := WSlot _ _ _ _). set (M' := put_slot M i x'). set (tv' := set_w _ _ _).
    assert (Le : mle M M').
    { apply put_le; rewrite S; simpl; auto using prefix_refl. congruence. }
    assert (Sl : sl M' i = x') by apply sl_put_same.
    assert (O2 : vok M' tv') by (apply vok_w; [rewrite Sl; simpl; lia|eapply vok_le; eauto]).
    assert (L2 : vle tv tv') by (apply vle_set_w; lia).
    destruct (put_ok M g id i x' (GWr id)) as [W' Gu]; auto; try congruence.
    - exists v. fold M'. rewrite Sl. reflexivity.
    - intros m Hm. eapply vok_le; [exact Le|]. eapply (wi_slot_v _ _ _ _ H2). rewrite S. exact Hm.
    - rewrite Hg. intros id' Ne. repeat split; congruence.
    - fold M' in W', Gu. assert (Ge : forall j, upd g i (GWr id) j = if j =? i then GWr id else g j) by reflexivity.
      exists (upd g i (GWr id)), (wrote i L). split; [assumption|]. split; [|split; [assumption|split; [assumption|]]].
      + destruct H3. constructor; auto.
        * intros j. rewrite Ge. cbn [wrote t_b t_n]. destruct (Nat.eqb_spec j i) as [->|]; [split; [discriminate|lia]|]. rewrite vw_own. lia.
        * intros j. rewrite Ge. cbn [wrote t_w]. destruct (Nat.eqb_spec j i) as [->|]; [split; reflexivity|]. rewrite vw_wr. rewrite Hw. split; [discriminate|congruence].
        * intros j. rewrite Ge. cbn [wrote t_l]. destruct (Nat.eqb_spec j i) as [->|]; [|apply vw_lock]. rewrite <- vw_lock, Hg. split; discriminate.
        * intros j Hj. cbn [wrote t_w] in Hj. injection Hj as <-. rewrite Sl. unfold tv'. simpl. unfold upd. rewrite Nat.eqb_refl. reflexivity.
        * intros j Hj. cbn [wrote t_l] in Hj. assert (j <> i) by (intros ->; apply vw_lock in Hj; congruence). destruct (vw_lcov j Hj) as [[D1 D2] D3]. unfold covers, M', tv'. rewrite sl_put_other by assumption. simpl. unfold upd. destruct (Nat.eqb_spec j i); [congruence|auto].
        * cbn [wrote t_k]. congruence.
      + apply HK; auto; [eapply mle_trans; eauto|now exists (upd g i (GWr id))|]. rewrite Sl. reflexivity.
  Qed.
  Definition done L := Tok (t_b L) (t_n L) None (t_l L) (t_f L) (t_k L) (t_g L).
  Lemma do_publish id i L M0 tv (K : unit -> toks -> wmem -> view -> Prop) :
    i < capv M0 tv -> vok M0 tv -> t_w L = Some i -> (forall M tv', mle M0 M -> good M -> vle tv tv' -> vok M tv' -> seen_some M tv' i -> (forall v, ro = true -> wv (sl M0 i) = Some v -> wv (sl M i) = Some v) -> K tt (done L) M tv') ->
    step_ok id (StoreSt i SOME) (fun _ => false) L M0 tv K.
  Proof.
    intros Hi O0 Hw HK M g k H1 H2 H3 _. cbn [wexec]. unfold with_wslot.
    assert (Hc : i < latest (m_cap M)).
    { apply (slot_cap M g); [assumption|]. right. exists tv. now rewrite (capv_le _ _ _ _ H1 O0). }
    rewrite (capv_le _ _ _ _ H1 O0), (proj2 (Nat.ltb_lt _ _) Hi). fold (sl M i). pose proof (vw_ok _ _ _ _ _ _ H3) as O.
    pose proof (proj2 (vw_wr _ _ _ _ _ _ H3 i) Hw) as Hg. pose proof (wi_slot _ _ _ _ H2 i) as S. rewrite Hg in S. destruct S as [v S].
    pose proof (vw_wcov _ _ _ _ _ _ H3 i Hw) as Hv. pose proof O as (_ & _ & _ & X & _). specialize (X i). rewrite S in *. cbn in X, Hv.
    assert (Z : v_st tv i = 0) by lia. unfold last_ts. cbn [ws length]. rewrite Z. cbn [Nat.sub Nat.eqb nth_error none0 mval wv]. right. split; [reflexivity|]. cbn [app ww wr].
    set (tv' := set_st _ _ _). set (x' := WSlot _ _ _ _). set (M' := put_slot M i x').
    assert (Le : mle M M') by (apply put_le; rewrite S; simpl; auto; now exists [Msg SOME tv' false id]).
    assert (Sl : sl M' i = x') by apply sl_put_same.
    assert (O2 : vok M' tv') by (apply vok_st; [rewrite Sl; simpl; lia|eapply vok_le; eauto]).
    assert (L2 : vle tv tv') by (apply vle_set_st; lia).
    assert (Ch' : chain ro M' i).
    { constructor; rewrite Sl; cbn [ws x' ww wv].
      - intros j q m m' Hjq Hm Hm' N. destruct q as [|[|q]]; [|injection Hm' as <-; discriminate|destruct q; discriminate]. assert (j = 0) as -> by lia. congruence.
      - intros q m m' Hm N Hm'. destruct q as [|[|q]]; [injection Hm as <-; discriminate|discriminate|destruct q; discriminate].
      - intros _ m [<-|[<-|[]]] N; [now destruct N|]. simpl. exact Hv.
      - now exists v. }
    destruct (put_ok M g id i x' GHas) as [W' Gu]; auto; try congruence.
    - split; [assumption|]. unfold ends. fold M'. exists (Msg SOME tv' false id). rewrite Sl. split; [reflexivity|]. split; [reflexivity|]. unfold covers. rewrite Sl. split; [exact Hv|]. intros _ r Hr. cbn in Hr. lia.
    - intros y [<-|[<-|[]]]; [|assumption]. eapply vok_le; [exact Le|]. eapply (wi_slot_v _ _ _ _ H2). rewrite S. now left.
    - rewrite Hg. intros id' Ne. repeat split; congruence.
    - fold M' in W', Gu. assert (Ge : forall j, upd g i GHas j = if j =? i then GHas else g j) by reflexivity.
      exists (upd g i GHas), (done L). split; [assumption|]. split; [|split; [assumption|split; [assumption|]]].
      + destruct H3. constructor; auto.
        * intros j. rewrite Ge. cbn [done t_b t_n]. destruct (Nat.eqb_spec j i) as [->|]; [|apply vw_own]. rewrite <- vw_own, Hg. split; discriminate.
        * intros j. rewrite Ge. cbn [done t_w]. destruct (Nat.eqb_spec j i) as [->|]; [split; discriminate|]. rewrite vw_wr. rewrite Hw. split; [congruence|discriminate].
        * intros j. rewrite Ge. cbn [done t_l]. destruct (Nat.eqb_spec j i) as [->|]; [|apply vw_lock]. rewrite <- vw_lock, Hg. split; discriminate.
        * discriminate.
        * intros j Hj. cbn [done t_l] in Hj. assert (j <> i) by (intros ->; apply vw_lock in Hj; congruence). destruct (vw_lcov j Hj) as [[D1 D2] D3]. unfold covers, M', tv'. rewrite sl_put_other by assumption. simpl. unfold upd. destruct (Nat.eqb_spec j i); [congruence|auto].
      + apply HK; auto; [eapply mle_trans; eauto|now exists (upd g i GHas)| |].
        * exists (Msg SOME tv' false id). rewrite Sl. unfold tv'. simpl. unfold upd. rewrite Nat.eqb_refl. split; [reflexivity|discriminate].
        * intros v0 R Y. rewrite <- Y. apply (le_ro _ _ _ (mle_trans _ _ _ _ H1 Le) R). congruence.
  Qed.

  (** ** Growth *)
  Definition grow_on L := Tok (t_b L) (t_n L) (t_w L) (t_l L) (t_f L) (t_k L) true.
  Definition grown L := Tok (t_b L) (t_n L) (t_w L) (t_l L) false false false.
  Lemma capv_last M tv : v_cap tv = last_ts (m_cap M) -> capv M tv = latest (m_cap M).
  Proof. intros H. unfold capv, latest. now rewrite H. Qed.
  Lemma do_grow_beg id n L M0 tv (K : bool -> toks -> wmem -> view -> Prop) :
    t_k L = true -> t_g L = false -> n <= m_max M0 -> (forall M, mle M0 M -> good M -> vok M tv -> K true (grow_on L) M tv) ->
    step_ok id (GrowBeg n) (fun _ => false) L M0 tv K.
  Proof.
    intros Hk Hg Hn HK M g k H1 H2 H3 _. cbn [wexec]. pose proof (vw_ok _ _ _ _ _ _ H3) as O. destruct (vw_k _ _ _ _ _ _ H3 Hk) as [A B]. pose proof (proj2 (vw_own _ _ _ _ _ _ H3 _) B) as C.
    assert (Gn : m_grow M = None).
    { destruct (m_grow M) as [j|] eqn:Q; [|reflexivity]. pose proof (wi_grow _ _ _ _ H2 j Q) as X. rewrite C in X. injection X as <-. apply (vw_g _ _ _ _ _ _ H3) in Q. congruence. }
    rewrite Gn, A, Nat.eqb_refl, (capv_last _ _ A). rewrite <- (le_max _ _ _ H1) in Hn. destruct (ok_pol E EOK _ _ n (wi_cap_ok _ _ _ _ H2) Hn) as [c ->]. right. split; [reflexivity|].
    set (M' := WMem _ _ _ _ _ _). assert (Le : mle M M') by (constructor; simpl; auto using prefix_refl).
    assert (W' : WI M' g).
    { destruct H2. constructor; try assumption; [intros j; apply (slotok_ext _ M); auto|]. intros j Hj. injection Hj as <-. exact C. }
    exists g, (grow_on L). split; [assumption|]. split; [|split; [|split; [apply vle_refl|]]].
    - destruct H3. constructor; auto. simpl. split; reflexivity.
    - split; [assumption|]. intros id' Ne. unfold same_for. simpl. repeat split; auto; intros; congruence.
    - apply HK; [eapply mle_trans; eauto|now exists g|eapply vok_le; eauto].
  Qed.
  Lemma do_grow_end id n L M0 tv (K : unit -> toks -> wmem -> view -> Prop) :
    t_k L = true -> t_g L = true -> n <= m_max M0 -> t_b L + t_n L <= n -> (forall M tv', mle M0 M -> good M -> vle tv tv' -> vok M tv' -> n <= capv M tv' -> K tt (grown L) M tv') ->
    step_ok id (GrowEnd n) (fun _ => false) L M0 tv K.
  Proof.
    intros Hk Hg Hn Hb HK M g k H1 H2 H3 _. cbn [wexec]. pose proof (vw_ok _ _ _ _ _ _ H3) as O. destruct (vw_k _ _ _ _ _ _ H3 Hk) as [A B]. pose proof (proj2 (vw_own _ _ _ _ _ _ H3 _) B) as C.
    pose proof (proj2 (vw_g _ _ _ _ _ _ H3) Hg) as Gn. rewrite Gn, A, (capv_last _ _ A), Nat.eqb_refl. cbn [is_tid]. rewrite Nat.eqb_refl.
    rewrite <- (le_max _ _ _ H1) in Hn. destruct (ok_pol E EOK _ _ n (wi_cap_ok _ _ _ _ H2) Hn) as [c Hc]. rewrite Hc. right. split; [reflexivity|].
    destruct (ok_pol' E EOK _ _ _ _ (wi_cap_ok _ _ _ _ H2) Hc) as (P1 & P2 & P3).
    set (tv' := set_cap _ _). set (M' := WMem _ _ _ _ _ _).
    assert (Sl : forall j, sl M' j = sl M j).
    { intros j. unfold sl. simpl. destruct (Nat.leb_spec (latest (m_cap M)) j) as [X|]; [|reflexivity]. destruct (Nat.ltb_spec j c); [|reflexivity]. symmetry. apply (wi_beyond _ _ _ _ H2 j X). }
    assert (Le : mle M M').
    { constructor; try solve [simpl; auto using prefix_refl, prefix_app]; intros; rewrite Sl; auto using prefix_refl. }
    assert (Ne : length (m_cap M) = S (last_ts (m_cap M))).
    { unfold last_ts. destruct (wi_ne _ _ _ _ H2) as (_ & _ & X). destruct (m_cap M); [congruence|simpl; lia]. }
    assert (O2 : vok M' tv').
    { destruct (vok_le _ _ _ _ Le O) as (X1 & X2 & X3 & X4 & X5). repeat split; auto. simpl. rewrite app_length. simpl. lia. }
    assert (L2 : vle tv tv') by (apply vle_set_cap; lia).
    destruct (last_in _ (proj2 (proj2 (wi_ne _ _ _ _ H2)))) as (ml & Ql & _). pose proof (latest_last _ _ Ql) as La.
    assert (W' : WI M' g).
    { destruct H2. constructor; auto.
      - intros m Hm. eapply vok_le; eauto.
      - intros m Hm. destruct (wi_wrtn_v m Hm). split; [eapply vok_le; eauto|eapply pub_le; eauto].
      - intros m Hm. simpl in Hm. apply in_app_or in Hm. destruct Hm as [Hm|[<-|[]]]; [eapply vok_le; eauto|assumption].
      - simpl. rewrite latest_snoc. simpl. assumption.
      - intros j q m m' Hjq Hm Hm'. simpl in Hm, Hm'. apply nth_snoc in Hm, Hm'. destruct Hm as [Hm|[-> ->]], Hm' as [Hm'|[-> ->]]; simpl; try lia.
        + eauto.
        + assert (mval m <= mval ml); [|lia]. destruct (Nat.eq_dec j (last_ts (m_cap M))) as [->|]; [rewrite Ql in Hm; injection Hm as ->; lia|].
          assert (mval m < mval ml); [|lia]. apply (wi_cap j (last_ts (m_cap M))); auto. lia.
        + assert (q < length (m_cap M)) by (apply nth_error_Some; congruence). lia.
      - intros q m m' Hm Hm'. cbn [m_cap M'] in Hm, Hm'. apply nth_snoc in Hm'. destruct Hm' as [Hm'|[e ->]].
        + apply nth_snoc in Hm. destruct Hm as [Hm|[-> ->]]; [eauto|]. assert (S (length (m_cap M)) < length (m_cap M)) by (apply nth_error_Some; congruence). lia.
        + assert (q = last_ts (m_cap M)) as -> by lia. rewrite nth_error_app1 in Hm by lia. rewrite Ql in Hm. injection Hm as <-. rewrite <- La, C. split; [discriminate|]. intros j Hj. simpl. congruence.
      - intros j. apply (slotok_ext _ M); auto.
      - intros j m. rewrite Sl. intros Hm. eapply vok_le; eauto.
      - intros j Hj. simpl in Hj. rewrite latest_snoc in Hj. simpl in Hj. rewrite Sl. apply wi_beyond. lia.
      - intros j Hj. simpl in Hj. discriminate.
      - simpl. destruct wi_ne as (X & Y & Z). split; [assumption|]. split; [assumption|]. destruct (m_cap M); discriminate. }
    exists g, (grown L). split; [assumption|]. split; [|split; [|split; [assumption|]]].
    - destruct H3. constructor; auto; try discriminate.
      + intros j Hj. rewrite Sl. exact (vw_wcov j Hj).
      + intros j Hj. unfold covers. rewrite Sl. apply vw_lcov. assumption.
      + split; discriminate.
    - split; [assumption|]. intros id' Ne'. unfold same_for. repeat split; intros; rewrite ?Sl; auto; try (simpl in *; congruence).
      simpl in H. apply in_app_or in H. destruct H as [H|[<-|[]]]; [assumption|]. simpl in *. congruence.
    - apply HK; auto; [eapply mle_trans; eauto|now exists g|]. unfold capv, tv'. simpl. rewrite nth_last. simpl. assumption.
  Qed.

  (** the wait for room *)
  Lemma do_room id again L M0 tv (K : nat -> toks -> wmem -> view -> Prop) :
    t_f L = true -> t_k L = false ->
    (forall M c tv', mle M0 M -> good M -> vle tv tv' -> vok M tv' -> again c = false -> c <= capv M tv' ->
       (t_b L <= c < t_b L + t_n L -> K c (Tok (t_b L) (t_n L) (t_w L) (t_l L) (t_f L) true (t_g L)) M tv') /\
       (~ t_b L <= c < t_b L + t_n L -> K c L M tv')) ->
    step_ok id LoadCap again L M0 tv K.
  Proof.
    intros Hf Hk HK. apply do_load_cap. intros M g k m tv' H1 H2 H3 Q C1 -> L2 O2 C2. destruct (again (mval m)) eqn:Ag; [now left|right]. split; [reflexivity|].
    destruct (HK M (mval m) _ H1 (ex_intro _ g H2) L2 O2 Ag C2) as [A B].
    assert (D : {t_b L <= mval m < t_b L + t_n L} + {~ t_b L <= mval m < t_b L + t_n L}).
    { destruct (le_lt_dec (t_b L) (mval m)), (le_lt_dec (t_b L + t_n L) (mval m)); [right|left|right|right]; lia. }
    destruct D as [D|D]; [|exists L; split; [eapply wview_up; eauto|auto]].
    eexists. split; [|apply A; assumption]. pose proof (wview_up _ _ _ _ _ _ _ H3 L2 O2) as W.
    assert (Lk : S k = length (m_cap M)).
    { assert (Hl : k < length (m_cap M)) by (apply nth_error_Some; congruence). destruct (Nat.eq_dec (S k) (length (m_cap M))) as [|Ne]; [assumption|].
      destruct (nth_error (m_cap M) (S k)) as [m'|] eqn:Q'; [|apply nth_error_None in Q'; lia]. exfalso.
      destruct (wi_grown _ _ _ _ H2 k m m' Q Q') as [_ X]. apply (vw_f _ _ _ _ _ _ H3 Hf m' (nth_error_In _ _ Q')). apply X. now apply (vw_own _ _ _ _ _ _ H3). }
    destruct W. constructor; auto. intros _. simpl t_b. simpl t_n. assert (La : last_ts (m_cap M) = k) by (unfold last_ts; lia). split.
    - rewrite La. destruct O2 as (_ & _ & X & _). unfold acq in *. simpl in *. lia.
    - unfold latest. rewrite La, Q. assumption.
  Qed.

  (** at the end of a call, the positions it did not write are lost *)
  Lemma lose M g id tv L : WI M g -> wview M g id tv L -> t_w L = None -> t_l L = [] -> t_g L = false ->
    exists g', WI M g' /\ guar id M g M g' /\ forall i, g' i <> GOwn id /\ g' i <> GWr id /\ g' i <> GLock id.
  Proof.
    intros W H Hw Hl Hg. set (g' := fun i => match g i with GOwn j => if j =? id then GLost else g i | x => x end). exists g'.
    assert (G1 : forall i, (g i = GOwn id /\ g' i = GLost) \/ (g i <> GOwn id /\ g' i = g i)).
    { intros i. unfold g'. destruct (g i) as [|j|j| | |j]; try (right; split; [discriminate|reflexivity]). destruct (Nat.eqb_spec j id) as [->|]; [now left|right]. split; [congruence|reflexivity]. }
    split; [|split].
    - destruct W. constructor; auto.
      + intros k m m' A B. destruct (wi_grown k m m' A B) as [X Y]. destruct (G1 (mval m)) as [[_ ->]|[_ ->]]; [split; discriminate|auto].
      + intros i. rewrite <- wi_free. destruct (G1 i) as [[-> ->]|[_ ->]]; [split; discriminate|reflexivity].
      + intros i. specialize (wi_slot i). destruct (G1 i) as [[e ->]|[_ ->]]; [|assumption]. rewrite e in wi_slot. simpl in *. now rewrite wi_slot.
      + intros i Hi. destruct (wi_beyond i Hi) as [X Y]. split; [assumption|]. destruct (G1 i) as [[e ->]|[_ ->]]; [exact I|assumption].
      + intros j Hj. specialize (wi_grow j Hj). destruct (G1 (latest (m_cap M))) as [[e _]|[_ ->]]; [|assumption]. rewrite e in wi_grow. injection wi_grow as <-. apply (vw_g _ _ _ _ _ _ H) in Hj. congruence.
    - split; [apply mle_refl|]. intros id' Ne. unfold same_for. repeat split; auto; intros; destruct (G1 i) as [[X Y]|[X Y]]; congruence.
    - intros i. destruct (G1 i) as [[X Y]|[X Y]]; rewrite Y; repeat split; try discriminate; try assumption.
      + intros Z. apply (vw_wr _ _ _ _ _ _ H) in Z. congruence.
      + intros Z. apply (vw_lock _ _ _ _ _ _ H) in Z. rewrite Hl in Z. destruct Z.
  Qed.
End WSlots.
