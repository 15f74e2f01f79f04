(** * Program logic of the view machine. *)

From Coq Require Import List Arith Bool Lia.
From Verif.Model Require Import Prog Mem Deps State Elem Vec Excl Machine.
From Verif Require Import Client.
From Verif.RA Require Import Weak WInv.
Import ListNotations.
Local Arguments Nat.leb : simpl never.
Local Arguments Nat.ltb : simpl never.
Local Arguments Nat.eqb : simpl never.
Local Arguments Nat.add : simpl never.
Local Arguments Nat.sub : simpl never.
Local Arguments Nat.max : simpl never.

Section WStep.
  Context {V : Type} (E : env V) (ro : bool) (EOK : env_ok E).
  Notation wmem := (wmem V).
  Notation wslot := (wslot V).
  Notation WI := (WI E ro).
  Notation good := (good E ro).
  Notation wview := (wview ro).
  Notation mle := (mle ro).
  Notation guar := (guar ro).
  Notation prog := (prog V).
  Implicit Types (M : wmem) (g : nat -> wgst) (tv : view) (L : toks).

  Definition fits (a : act V) M : Prop := match a with AddResv n _ => latest (m_resv M) + n < wmod E | _ => True end.

  Definition step_ok (id : nat) (a : act V) (again : res a -> bool) L M0 tv (K : res a -> toks -> wmem -> view -> Prop) : Prop :=
    forall M g k, mle M0 M -> WI M g -> wview M g id tv L -> fits a M ->
      match wexec E id a k M tv with
      | WNone => True
      | WBad _ => False
      | WDone x M' tv' => again x = true \/
          (again x = false /\ exists g' L', WI M' g' /\ wview M' g' id tv' L' /\ guar id M g M' g' /\ vle tv tv' /\ K x L' M' tv')
      end.

  (** the same when the thread of the call may learn more before the access: a closure of the
      call may synchronise with another thread *)
  Definition step_all (id : nat) (a : act V) (again : res a -> bool) L M tv (K : res a -> toks -> wmem -> view -> Prop) : Prop :=
    forall M1 tv1, mle M M1 -> vle tv tv1 -> good M1 -> vok M1 tv1 -> step_ok id a again L M1 tv1 K.

  Section Wp.
    Context (id : nat) {R : Type} (Q : R -> toks -> wmem -> view -> Prop) (QP : panic -> toks -> wmem -> view -> Prop).
    Fixpoint wp (p : prog R) L M tv : Prop :=
      match p with
      | Ret r => Q r L M tv
      | Pan m => QP m L M tv
      | Act a k => step_all id a (fun _ => false) L M tv (fun x => wp (k x))
      | Spin a again k => step_all id a again L M tv (fun x => wp (k x))
      end.
  End Wp.

  Lemma step_mono id a again L M tv (K K' : res a -> toks -> wmem -> view -> Prop) :
    (forall x L' M' tv', K x L' M' tv' -> K' x L' M' tv') -> step_ok id a again L M tv K -> step_ok id a again L M tv K'.
  Proof.
    intros H S M1 g k H1 H2 H3 H4. specialize (S M1 g k H1 H2 H3 H4). destruct (wexec E id a k M1 tv); auto.
    destruct S as [S|(S & g' & L' & S1 & S2 & S3 & S4 & S5)]; [now left|right]. split; [assumption|]. exists g', L'. auto 10.
  Qed.
  Lemma all_mono id a again L M tv (K K' : res a -> toks -> wmem -> view -> Prop) :
    (forall x L' M' tv', K x L' M' tv' -> K' x L' M' tv') -> step_all id a again L M tv K -> step_all id a again L M tv K'.
  Proof. intros H S M1 tv1 A B C D. eapply step_mono; eauto. Qed.
  Lemma wp_mono id {R} (Q Q' : R -> _ -> _ -> _ -> Prop) (QP QP' : panic -> _ -> _ -> _ -> Prop) p :
    (forall r L M tv, Q r L M tv -> Q' r L M tv) -> (forall r L M tv, QP r L M tv -> QP' r L M tv) ->
    forall L M tv, wp id Q QP p L M tv -> wp id Q' QP' p L M tv.
  Proof.
    intros HQ HP. induction p as [r|m|a k IH|a again k IH]; simpl; intros L M tv; auto.
    - apply all_mono. intros. now apply IH.
    - apply all_mono. intros. now apply IH.
  Qed.
  Lemma wp_bind id {A B} (Q : B -> _ -> _ -> _ -> Prop) QP (p : prog A) (f : A -> prog B) :
    forall L M tv, wp id (fun x L' M' tv' => wp id Q QP (f x) L' M' tv') QP p L M tv -> wp id Q QP (bind p f) L M tv.
  Proof.
    induction p as [r|m|a k IH|a again k IH]; simpl; intros L M tv; auto.
    - apply all_mono. intros. now apply IH.
    - apply all_mono. intros. now apply IH.
  Qed.
  Lemma wp_fmap id {A B} (Q : B -> _ -> _ -> _ -> Prop) QP (p : prog A) (f : A -> B) :
    forall L M tv, wp id (fun x L' M' tv' => Q (f x) L' M' tv') QP p L M tv -> wp id Q QP (fmap f p) L M tv.
  Proof. intros L M tv H. unfold fmap. apply wp_bind. exact H. Qed.

  (** ** Accesses that change no memory *)
  Lemma wview_up M g id tv tv' L : wview M g id tv L -> vle tv tv' -> vok M tv' -> wview M g id tv' L.
  Proof.
    intros W (A & B & C & D & F & G) O. pose proof O as (O1 & O2 & O3 & O4 & O5). destruct W. constructor; auto.
    - intros i Hi. specialize (vw_wcov i Hi). specialize (F i). specialize (O5 i). lia.
    - intros i Hi. destruct (vw_lcov i Hi) as [[X Y] Z]. specialize (F i). specialize (O5 i). specialize (D i). specialize (O4 i). unfold last_ts in *.
      repeat split; try lia. intros R r Hr. auto.
    - intros K. destruct (vw_k K) as [X Y]. unfold last_ts in *. split; [lia|assumption].
  Qed.
  Lemma guar_refl id M g : guar id M g M g.
  Proof. split; [apply mle_refl|]. intros id' Ne. unfold same_for. intuition congruence. Qed.

  Lemma step_read id a again L M0 tv (K : res a -> toks -> wmem -> view -> Prop) :
    (forall M g k, mle M0 M -> WI M g -> wview M g id tv L ->
       match wexec E id a k M tv with
       | WNone => True
       | WBad _ => False
       | WDone x M' tv' => again x = true \/ (again x = false /\ M' = M /\ vle tv tv' /\ vok M tv' /\ K x L M tv')
       end) -> step_ok id a again L M0 tv K.
  Proof.
    intros H M g k H1 H2 H3 _. specialize (H M g k H1 H2 H3). destruct (wexec E id a k M tv) as [x M' tv'|f|]; auto.
    destruct H as [H|(H & -> & A & B & C)]; [now left|right]. split; [assumption|]. exists g, L. refine (conj H2 (conj _ (conj (guar_refl _ _ _) (conj A C)))).
    eapply wview_up; eauto.
  Qed.

  Lemma pub_le M M' tv n : mle M M' -> vok M tv -> pub M tv n -> pub M' tv n.
  Proof.
    intros H O (A & (m & B & B') & C). split; [rewrite (capv_le _ M M' tv H O); assumption|]. split.
    - exists m. split; [|assumption]. eapply prefix_nth; [apply (le_resv _ _ _ H)|assumption].
    - intros i Hi. destruct (C i Hi) as (m' & D & D'). exists m'. split; [|assumption]. eapply prefix_nth; [apply (le_st _ _ _ H)|assumption].
  Qed.

  Lemma last_in {A} (l : list (msg A)) : l <> [] -> exists m, nth_error l (last_ts l) = Some m /\ In m l.
  Proof.
    intros H. unfold last_ts. destruct (nth_error l (length l - 1)) as [m|] eqn:Q; [exists m; split; [reflexivity|eapply nth_error_In; eauto]|].
    apply nth_error_None in Q. destruct l; [congruence|simpl in Q; lia].
  Qed.
  Lemma latest_last l m : nth_error l (last_ts l) = Some m -> latest l = mval m.
  Proof. intros H. unfold latest. now rewrite H. Qed.

  (** loads *)
  Lemma do_load_resv id o L M0 tv (K : nat -> toks -> wmem -> view -> Prop) :
    (forall M n tv', mle M0 M -> good M -> vok M tv -> vle tv tv' -> vok M tv' -> seen_resv M tv' n -> (forall n', seen_resv M tv n' -> n' <= n) -> K n L M tv') ->
    step_ok id (LoadResv o) (fun _ => false) L M0 tv K.
  Proof.
    intros HK. apply step_read. intros M g k H1 H2 H3. simpl. pose proof (vw_ok _ _ _ _ _ _ H3) as O. assert (G : good M) by now exists g.
    destruct (nth_error (m_resv M) k) as [m|] eqn:Q; [|exact I]. destruct (Nat.leb_spec (v_resv tv) k) as [Hk|]; [|exact I]. right. split; [reflexivity|]. split; [reflexivity|].
    assert (Hl : k < length (m_resv M)) by (apply nth_error_Some; congruence).
    assert (Ov : vok M (mview m)) by (apply (wi_resv_v _ _ _ _ H2); eapply nth_error_In; eauto).
    assert (O1 : vok M (set_resv k tv)) by (destruct O as (A & B & C & D & F); repeat split; auto).
    assert (O2 : vok M (acq o m (set_resv k tv))) by now apply vok_acq.
    assert (L1 : vle (set_resv k tv) (acq o m (set_resv k tv))) by apply vle_acq.
    assert (L2 : vle tv (acq o m (set_resv k tv))) by (eapply vle_trans; [apply vle_set_resv; exact Hk|assumption]).
    split; [assumption|]. split; [assumption|]. apply HK; auto.
    - eapply seen_resv_up; [apply mle_refl|exact L1|exact G|exact O2|]. exists m. simpl. auto.
    - intros n' (m' & Q' & Hn). pose proof (wi_resv _ _ _ _ H2 _ _ m' m Hk Q' Q). lia.
  Qed.
  Lemma do_load_wrtn id L M0 tv (K : nat -> toks -> wmem -> view -> Prop) :
    (forall M n tv', mle M0 M -> good M -> vok M tv -> vle tv tv' -> vok M tv' -> pub M tv' n -> (forall n', seen_wrtn M tv n' -> n' <= n) -> K n L M tv') ->
    step_ok id (LoadWrtn Acquire) (fun _ => false) L M0 tv K.
  Proof.
    intros HK. apply step_read. intros M g k H1 H2 H3. simpl. pose proof (vw_ok _ _ _ _ _ _ H3) as O. assert (G : good M) by now exists g.
    destruct (nth_error (m_wrtn M) k) as [m|] eqn:Q; [|exact I]. destruct (Nat.leb_spec (v_wrtn tv) k) as [Hk|]; [|exact I]. right. split; [reflexivity|]. split; [reflexivity|].
    assert (Hl : k < length (m_wrtn M)) by (apply nth_error_Some; congruence).
    destruct (wi_wrtn_v _ _ _ _ H2 m) as [Ov P]; [eapply nth_error_In; eauto|].
    assert (O1 : vok M (set_wrtn k tv)) by (destruct O as (A & B & C & D & F); repeat split; auto).
    assert (O2 : vok M (acq Acquire m (set_wrtn k tv))) by now apply vok_acq.
    assert (L2 : vle tv (acq Acquire m (set_wrtn k tv))) by (eapply vle_trans; [apply vle_set_wrtn; exact Hk|apply vle_acq]).
    split; [assumption|]. split; [assumption|]. apply HK; auto.
    - eapply pub_up; [apply mle_refl|apply vle_join_r|exact Ov|exact G|exact O2|exact P].
    - intros n' (m' & Q' & Hn). pose proof (wi_wrtn _ _ _ _ H2 _ _ m' m Hk Q' Q). lia.
  Qed.
  Lemma do_load_cap id again L M0 tv (K : nat -> toks -> wmem -> view -> Prop) :
    (forall M g k m tv', mle M0 M -> WI M g -> wview M g id tv L -> nth_error (m_cap M) k = Some m -> capv M tv <= mval m ->
       tv' = acq Acquire m (set_cap k tv) -> vle tv tv' -> vok M tv' -> mval m <= capv M tv' -> again (mval m) = true \/
       (again (mval m) = false /\ exists L', wview M g id tv' L' /\ K (mval m) L' M tv')) ->
    step_ok id LoadCap again L M0 tv K.
  Proof.
    intros HK M g k H1 H2 H3 _. cbn [wexec]. pose proof (vw_ok _ _ _ _ _ _ H3) as O. assert (G : good M) by now exists g.
    destruct (nth_error (m_cap M) k) as [m|] eqn:Q; [|exact I]. destruct (Nat.leb_spec (v_cap tv) k) as [Hk|]; [|exact I].
    assert (Hl : k < length (m_cap M)) by (apply nth_error_Some; congruence).
    assert (Ov : vok M (mview m)) by (apply (wi_cap_v _ _ _ _ H2); eapply nth_error_In; eauto).
    assert (O1 : vok M (set_cap k tv)) by (destruct O as (A & B & C & D & F); repeat split; auto).
    assert (O2 : vok M (acq Acquire m (set_cap k tv))) by now apply vok_acq.
    assert (L2 : vle tv (acq Acquire m (set_cap k tv))) by (eapply vle_trans; [apply vle_set_cap; exact Hk|apply vle_acq]).
    assert (Cv : capv M (set_cap k tv) = mval m) by (unfold capv; simpl; now rewrite Q).
    assert (C1 : capv M tv <= mval m) by (rewrite <- Cv; apply (capv_mono _ _ _ _ _ G); simpl; lia).
    assert (C2 : mval m <= capv M (acq Acquire m (set_cap k tv))) by (rewrite <- Cv; apply (capv_up E ro _ _ _ _ (mle_refl _ _)); auto; apply vle_acq).
    destruct (HK M g k m _ H1 H2 H3 Q C1 eq_refl L2 O2 C2) as [A|(A & L' & B & C)]; [now left|right]. split; [assumption|]. exists g, L'. exact (conj H2 (conj B (conj (guar_refl _ _ _) (conj L2 C)))).
  Qed.
  Lemma do_cap id L M0 tv (K : nat -> toks -> wmem -> view -> Prop) :
    (forall M c tv', mle M0 M -> good M -> vok M tv -> vle tv tv' -> vok M tv' -> c <= capv M tv' -> capv M tv <= c -> K c L M tv') ->
    step_ok id LoadCap (fun _ => false) L M0 tv K.
  Proof.
    intros HK. apply do_load_cap. intros M g k m tv' H1 H2 H3 Q C1 -> L2 O2 C2. right. split; [reflexivity|]. exists L. split; [eapply wview_up; eauto|].
    apply HK; auto; [now exists g|apply H3].
  Qed.
  Lemma do_max id L M0 tv (K : nat -> toks -> wmem -> view -> Prop) :
    (forall M, mle M0 M -> good M -> vok M tv -> K (m_max M) L M tv) -> step_ok id LoadMax (fun _ => false) L M0 tv K.
  Proof.
    intros HK. apply step_read. intros M g k H1 H2 H3. simpl. right. split; [reflexivity|]. split; [reflexivity|]. split; [apply vle_refl|]. split; [apply H3|]. apply HK; auto; [now exists g|apply H3].
  Qed.
  Lemma do_load_st id i o L M0 tv (K : st -> toks -> wmem -> view -> Prop) :
    i < capv M0 tv -> vok M0 tv ->
    (forall M x tv', mle M0 M -> good M -> vok M tv -> vle tv tv' -> vok M tv' -> (x <> NONE -> seen_some M tv' i) ->
        (ro = true -> acquires o = true -> x <> NONE -> v_w tv' i = ww (sl M i)) -> (seen_some M tv i -> x <> NONE) -> K x L M tv') ->
    step_ok id (LoadSt i o) (fun _ => false) L M0 tv K.
  Proof.
    intros Hi O0 HK. apply step_read. intros M g k H1 H2 H3. cbn [wexec]. pose proof (vw_ok _ _ _ _ _ _ H3) as O. assert (G : good M) by now exists g. unfold with_wslot.
    rewrite (capv_le _ _ _ _ H1 O0), (proj2 (Nat.ltb_lt _ _) Hi). fold (sl M i).
    destruct (nth_error (ws (sl M i)) k) as [m|] eqn:Q; [|exact I]. destruct (Nat.leb_spec (v_st tv i) k) as [Hk|]; [|exact I]. right. split; [reflexivity|]. split; [reflexivity|].
    assert (Hl : k < length (ws (sl M i))) by (apply nth_error_Some; congruence).
    assert (Im : In m (ws (sl M i))) by (eapply nth_error_In; eauto).
    assert (Ov : vok M (mview m)) by (eapply (wi_slot_v _ _ _ _ H2); eauto).
    assert (O1 : vok M (set_st i k tv)).
    { destruct O as (A & B & C & D & F). repeat split; auto. intros j. simpl. unfold upd. destruct (Nat.eqb_spec j i) as [->|]; auto. }
    assert (O2 : vok M (acq o m (set_st i k tv))) by now apply vok_acq.
    assert (L1 : vle (set_st i k tv) (acq o m (set_st i k tv))) by apply vle_acq.
    assert (L2 : vle tv (acq o m (set_st i k tv))) by (eapply vle_trans; [apply vle_set_st; exact Hk|assumption]).
    split; [assumption|]. split; [assumption|]. apply HK; auto.
    - intros N. eapply seen_some_up; [apply mle_refl|exact L1|exact G|exact O2|]. exists m. simpl. unfold upd. rewrite Nat.eqb_refl. auto.
    - intros R A N. pose proof (published_chain _ _ _ _ i H2 ltac:(now exists k, m)) as Ch. pose proof (ch_ro _ _ _ Ch R m Im N) as W.
      destruct O2 as (_ & _ & _ & _ & B). specialize (B i). destruct L1 as (_ & _ & _ & _ & C & _). specialize (C i). unfold acq in *. rewrite A in *. simpl in *. lia.
    - intros (m' & Q' & N'). exact (ch_some _ _ _ (published_chain _ _ _ _ i H2 ltac:(now exists (v_st tv i), m')) _ _ _ _ Hk Q' Q N').
  Qed.
  Lemma do_iter id a b L M0 tv (K : unit -> toks -> wmem -> view -> Prop) :
    a <= b -> b <= capv M0 tv -> vok M0 tv -> (forall M, mle M0 M -> good M -> vok M tv -> K tt L M tv) ->
    step_ok id (IterRange a b) (fun _ => false) L M0 tv K.
  Proof.
    intros H H' O HK. apply step_read. intros M g k H1 H2 H3. simpl. rewrite (capv_le _ _ _ _ H1 O), (proj2 (Nat.leb_le _ _) H), (proj2 (Nat.leb_le _ _) H').
    simpl. right. split; [reflexivity|]. split; [reflexivity|]. split; [apply vle_refl|]. split; [apply H3|]. apply HK; auto; [now exists g|apply H3].
  Qed.

  (** ** The counters *)
  Lemma slotok_ext M M' i x : sl M' i = sl M i -> slotok ro M i x -> slotok ro M' i x.
  Proof.
    intros H S. assert (Ch : chain ro M i -> chain ro M' i) by (intros []; constructor; rewrite ?H; auto).
    destruct x; simpl in *; unfold ends, covers in *; rewrite ?H; intuition auto.
  Qed.

  Lemma do_add id n M0 tv (K : nat -> toks -> wmem -> view -> Prop) :
    (forall M b tv' k m, mle M0 M -> good M -> vle tv tv' -> vok M tv' -> nth_error (m_resv M) (S k) = Some m -> mby m = id -> mval m = b + n -> b + n < wmod E ->
       (exists m', nth_error (m_resv M) k = Some m' /\ mval m' = b) -> seen_resv M tv' (b + n) -> K b (Tok b n None [] true false false) M tv') ->
    step_ok id (AddResv n Relaxed) (fun _ => false) tok0 M0 tv K.
  Proof.
    intros HK M g k H1 H2 H3 Fi. cbn [wexec]. destruct (last_in _ (proj1 (wi_ne _ _ _ _ H2))) as (m & Q & Im). rewrite Q. right. split; [reflexivity|].
    pose proof (latest_last _ _ Q) as La. simpl in Fi. rewrite La in Fi. rewrite Nat.mod_small by assumption. cbn [acq rel acquires releases].
    set (M' := WMem _ _ _ _ _ _). pose proof (vw_ok _ _ _ _ _ _ H3) as O. assert (G : good M) by now exists g.
    assert (Le : mle M M') by (constructor; simpl; auto using prefix_refl, prefix_app).
    assert (Ne : length (m_resv M) = S (last_ts (m_resv M))).
    { unfold last_ts. destruct (wi_ne _ _ _ _ H2) as (A & _). destruct (m_resv M); [congruence|simpl; lia]. }
    assert (O' : vok M' (set_resv (length (m_resv M)) tv)).
    { destruct (vok_le _ _ _ _ Le O) as (A & B & C & D & F). repeat split; auto. simpl. rewrite app_length. simpl. lia. }
    set (g' := fun i => if (mval m <=? i) && (i <? mval m + n) then GOwn id else g i).
    assert (Fr : forall i, mval m <= i -> g i = GFree) by (intros i Hi; apply (wi_free _ _ _ _ H2); now rewrite La).
    assert (Gc : forall i, g i <> GFree -> g' i = g i).
    { intros i Hi. unfold g'. destruct (Nat.leb_spec (mval m) i) as [X|]; [|reflexivity]. destruct Hi. auto. }
    assert (Gi : forall i, mval m <= i < mval m + n -> g' i = GOwn id).
    { intros i Hi. unfold g'. destruct (Nat.leb_spec (mval m) i); [|lia]. destruct (Nat.ltb_spec i (mval m + n)); [reflexivity|lia]. }
    assert (Go : forall i, ~ mval m <= i < mval m + n -> g' i = g i).
    { intros i Hi. unfold g'. destruct (Nat.leb_spec (mval m) i); [|reflexivity]. destruct (Nat.ltb_spec i (mval m + n)); [lia|reflexivity]. }
    assert (Gd : WI M' g').
    { destruct H2. constructor; auto.
      - intros j q x y Hjq Hx Hy. simpl in Hx, Hy. apply nth_snoc in Hx, Hy. destruct Hx as [Hx|[-> ->]], Hy as [Hy|[-> ->]]; simpl; try lia.
        + eauto.
        + assert (mval x <= mval m); [|lia]. apply (wi_resv j (last_ts (m_resv M)) x m); auto. assert (j < length (m_resv M)) by (apply nth_error_Some; congruence). lia.
        + assert (q < length (m_resv M)) by (apply nth_error_Some; congruence). lia.
      - intros x Hx. simpl in Hx. apply in_app_or in Hx. destruct Hx as [Hx|[<-|[]]]; simpl; eauto using vok_le.
      - intros x Hx. destruct (wi_wrtn_v x Hx) as [A B]. split; [eauto using vok_le|]. eapply pub_le; eauto.
      - intros x Hx. eapply vok_le; eauto.
      - intros j x y Hx Hy. destruct (wi_grown j x y Hx Hy) as [A B]. rewrite Gc by assumption. auto.
      - intros i. unfold latest. simpl. rewrite last_ts_snoc, nth_last. simpl. destruct (Nat.lt_ge_cases i (mval m)) as [X|X].
        + rewrite Go by lia. rewrite wi_free, La. lia.
        + destruct (Nat.lt_ge_cases i (mval m + n)) as [Y|Y]; [rewrite Gi by lia; split; [discriminate|lia]|]. rewrite Go by lia. rewrite Fr by lia. split; auto; lia.
      - intros i. apply (slotok_ext M); [reflexivity|]. destruct (Nat.lt_ge_cases i (mval m)) as [X|X]; [rewrite Go by lia; auto|].
        destruct (Nat.lt_ge_cases i (mval m + n)) as [Y|Y]; [|rewrite Go by lia; auto]. rewrite Gi by lia. specialize (wi_slot i). rewrite Fr in wi_slot by lia. exact wi_slot.
      - intros i x Hx. eapply vok_le; eauto.
      - intros i Hi. destruct (wi_beyond i Hi) as [A B]. split; [assumption|]. destruct (Nat.lt_ge_cases i (mval m)) as [X|X]; [rewrite Go by lia; auto|].
        destruct (Nat.lt_ge_cases i (mval m + n)) as [Y|Y]; [rewrite Gi by lia; exact I|rewrite Go by lia; auto].
      - intros i Hi. specialize (wi_grow i Hi). simpl in *. rewrite Gc; [assumption|]. rewrite wi_grow. discriminate.
      - simpl. split; [intros X; destruct (m_resv M); discriminate|]. apply wi_ne. }
    exists g', (Tok (mval m) n None [] true false false). split; [assumption|]. split; [|split; [|split]].
    - destruct H3. cbn in *. constructor; simpl; auto.
      + intros i. destruct (Nat.lt_ge_cases i (mval m)) as [X|X]; [rewrite Go by lia; rewrite vw_own; lia|].
        destruct (Nat.lt_ge_cases i (mval m + n)) as [Y|Y]; [rewrite Gi by lia; split; auto; lia|]. rewrite Go by lia. rewrite Fr by lia. split; [discriminate|lia].
      + intros i. rewrite <- (vw_wr i). destruct (Nat.lt_ge_cases i (mval m)) as [X|X]; [rewrite Go by lia; reflexivity|].
        destruct (Nat.lt_ge_cases i (mval m + n)) as [Y|Y]; [rewrite Gi by lia; rewrite Fr by lia; split; discriminate|rewrite Go by lia; reflexivity].
      + intros i. rewrite <- (vw_lock i). destruct (Nat.lt_ge_cases i (mval m)) as [X|X]; [rewrite Go by lia; reflexivity|].
        destruct (Nat.lt_ge_cases i (mval m + n)) as [Y|Y]; [rewrite Gi by lia; rewrite Fr by lia; split; discriminate|rewrite Go by lia; reflexivity].
      + discriminate.
    - split; [assumption|]. intros id' Ne'. unfold same_for. simpl.
      assert (S : forall x, x <> GFree -> x <> GOwn id -> forall i, g' i = x <-> g i = x).
      { intros x Hx Hx' i. destruct (Nat.lt_ge_cases i (mval m)) as [X|X]; [rewrite Go by lia; reflexivity|].
        destruct (Nat.lt_ge_cases i (mval m + n)) as [Y|Y]; [rewrite Gi by lia; rewrite Fr by lia; split; congruence|rewrite Go by lia; reflexivity]. }
      repeat split; try (apply S; congruence); auto.
    - apply vle_set_resv. destruct O as (A & _). lia.
    - apply (HK M' (mval m) _ (last_ts (m_resv M)) (Msg (mval m + n) (mview m) true id)); auto.
      + eapply mle_trans; eauto.
      + now exists g'.
      + apply vle_set_resv. destruct O as (A & _). lia.
      + change (nth_error (m_resv M ++ [Msg (mval m + n) (mview m) true id]) (S (last_ts (m_resv M))) = Some (Msg (mval m + n) (mview m) true id)). rewrite <- Ne. apply nth_last.
      + exists m. split; [|reflexivity]. simpl. rewrite nth_error_app1 by lia. assumption.
      + exists (Msg (mval m + n) (mview m) true id). split; [apply nth_last|simpl; lia].
  Qed.

  Lemma do_max_wrtn id n L M0 tv (K : nat -> toks -> wmem -> view -> Prop) :
    pub M0 tv n -> vok M0 tv ->
    (forall M x tv', mle M0 M -> good M -> vle tv tv' -> vok M tv' -> seen_wrtn M tv' n -> K x L M tv') ->
    step_ok id (MaxWrtn n Release) (fun _ => false) L M0 tv K.
  Proof.
    intros P0 O0 HK M g k H1 H2 H3 _. cbn [wexec]. destruct (last_in _ (proj1 (proj2 (wi_ne _ _ _ _ H2)))) as (m & Q & Im). rewrite Q. right. split; [reflexivity|].
    cbn [acq rel acquires releases]. set (tv' := set_wrtn (length (m_wrtn M)) tv). set (M' := WMem _ _ _ _ _ _). pose proof (vw_ok _ _ _ _ _ _ H3) as O. assert (G : good M) by now exists g.
    assert (Le : mle M M') by (constructor; simpl; auto using prefix_refl, prefix_app).
    destruct (wi_wrtn_v _ _ _ _ H2 m Im) as [Om Pm].
    assert (O' : vok M' tv').
    { destruct (vok_le _ _ _ _ Le O) as (A & B & C & D & F). repeat split; auto. simpl. rewrite app_length. simpl. lia. }
    assert (Oj : vok M' (vjoin (mview m) tv')) by (apply vok_join; [eapply vok_le; eauto|assumption]).
    assert (Lv : vle tv tv') by (apply vle_set_wrtn; destruct O as (_ & A & _); lia).
    assert (Pj : pub M (vjoin (mview m) tv) (Nat.max (mval m) n)).
    { assert (Oj' : vok M (vjoin (mview m) tv)) by now apply vok_join.
      pose proof (pub_le _ _ _ _ H1 O0 P0) as P1.
      pose proof (pub_up _ _ _ _ _ _ _ (mle_refl _ M) (vle_join_l (mview m) tv) Om G Oj' Pm) as X.
      pose proof (pub_up _ _ _ _ _ _ _ (mle_refl _ M) (vle_join_r (mview m) tv) O G Oj' P1) as Y.
      destruct (Nat.max_spec (mval m) n) as [[_ ->]|[_ ->]]; assumption. }
    assert (Gd : WI M' g).
    { destruct H2. constructor; auto.
      - intros x Hx. eapply vok_le; eauto.
      - intros x Hx. simpl in Hx. apply in_app_or in Hx. destruct Hx as [Hx|[<-|[]]].
        + destruct (wi_wrtn_v x Hx). split; [eapply vok_le; eauto|eapply pub_le; eauto].
        + split; [assumption|]. simpl mview. simpl mval. destruct Pj as (A & B & C). repeat split; auto.
      - intros x Hx. eapply vok_le; eauto.
      - intros i. apply (slotok_ext M); auto.
      - intros i x Hx. eapply vok_le; eauto.
      - simpl. destruct wi_ne as (A & B & C). split; [assumption|]. split; [|assumption]. intros X. destruct (m_wrtn M); discriminate.
      - assert (Ne : length (m_wrtn M) = S (last_ts (m_wrtn M))).
        { unfold last_ts. destruct wi_ne as (_ & A & _). destruct (m_wrtn M); [congruence|simpl; lia]. }
        intros j q x y Hjq Hx Hy. simpl in Hx, Hy. apply nth_snoc in Hx, Hy. destruct Hx as [Hx|[-> ->]], Hy as [Hy|[-> ->]]; simpl; try lia.
        + eauto.
        + assert (mval x <= mval m); [|lia]. apply (wi_wrtn j (last_ts (m_wrtn M)) x m); auto. assert (j < length (m_wrtn M)) by (apply nth_error_Some; congruence). lia.
        + assert (q < length (m_wrtn M)) by (apply nth_error_Some; congruence). lia. }
    exists g, L. split; [assumption|]. split; [|split; [|split]].
    - assert (W : wview M' g id tv L); [|eapply wview_up; eauto]. destruct H3. constructor; auto. eapply vok_le; eauto.
    - split; [assumption|]. intros id' Ne. unfold same_for. simpl. intuition congruence.
    - assumption.
    - apply HK; auto; [eapply mle_trans; eauto|now exists g|]. exists (Msg (Nat.max (mval m) n) (vjoin (mview m) tv') true id). split; [apply nth_last|simpl; lia].
  Qed.
End WStep.
