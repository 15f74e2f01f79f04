(** * Every method satisfies its relation of [Post.v], under arbitrary interference. *)

From Coq Require Import List Arith Bool Lia Permutation.
From Verif.Model Require Import Prog Mem Deps State Elem Vec Excl Machine.
From Verif Require Import Client.
From Verif.Logic Require Import Inv WP Post.
Import ListNotations.
Local Arguments Nat.leb : simpl never.
Local Arguments Nat.ltb : simpl never.
Local Arguments Nat.eqb : simpl never.
Local Arguments Nat.add : simpl never.
Local Arguments Nat.sub : simpl never.
Local Arguments doo : simpl never.
Local Arguments WP.wp : simpl never.
Local Arguments step_ok : simpl never.
Local Arguments spin_step : simpl never.
Local Arguments elem_cloned : simpl never.
Local Arguments elem_copied : simpl never.
Local Arguments elem_map : simpl never.
Local Arguments elem_replace : simpl never.
Local Arguments elem_set : simpl never.
Local Arguments elem_update : simpl never.
Local Arguments elem_eq : simpl never.
Local Arguments option_map : simpl never.
Local Arguments spin_handle : simpl never.
Local Arguments option_clone : simpl never.
Local Arguments initialize_unchecked : simpl never.
Local Arguments vec_len : simpl never.
Local Arguments core_get : simpl never.
Local Arguments core_iter_over_range : simpl never.
Local Arguments is_some_with_order : simpl never.
Local Arguments vec_slice : simpl never.
Local Arguments slice_slice : simpl never.
Local Arguments vec_get_ref : simpl never.
Local Arguments grow_to : simpl never.
Local Arguments state_len : simpl never.
Local Arguments core_capacity : simpl never.

Section Specs.
  Context {V : Type} (E : env V) (ro nl : bool) (EOK : env_ok E) (t : nat).
  Notation Inv := (Inv E ro).
  Notation good := (good E ro).
  Notation wp := (wp E ro nl t).
  Notation shared := (shared V).
  Notation prog := (prog V).
  Notation acc := (acc V).
  Implicit Types (s : shared) (g : nat -> gst V) (L : list (tok V)) (tr : list acc).

  (** *** facts about traces *)
  Lemma eff_app (a b : list acc) : eff (a ++ b) = eff a ++ eff b.
  Proof. apply filter_app. Qed.
  Lemma eff_reads a (vs : list V) : eff (reads a vs) = reads a vs.
  Proof. revert a. induction vs; simpl; intros; [reflexivity|]. now rewrite IHvs. Qed.
  Lemma eff_inits a (vs : list V) : eff (inits a vs) = inits a vs.
  Proof. revert a. induction vs; simpl; intros; [reflexivity|]. now rewrite IHvs. Qed.
  Lemma eff_writes a (vs : list (V * V)) : eff (writes a vs) = writes a vs.
  Proof. revert a. induction vs; simpl; intros; [reflexivity|]. now rewrite IHvs. Qed.
  Lemma len_reason_app n (a b c : list acc) : len_reason n b -> len_reason n (a ++ b ++ c).
  Proof.
    unfold len_reason. intros [H|[H|(x & H1 & H)]].
    - left. rewrite !in_app_iff. auto.
    - right; left. rewrite !in_app_iff. auto.
    - right; right. exists x. rewrite !in_app_iff. auto.
  Qed.
  Lemma lenres_weak n a b c s0 s1 s2 s3 :
    wrtn s0 <= wrtn s1 -> wrtn s2 <= wrtn s3 -> lenres n b s1 s2 -> lenres n (a ++ b ++ c) s0 s3.
  Proof. intros H1 H2 [H3 H4]. split; [lia|]. now apply len_reason_app. Qed.
  Lemma lenres_weak_r n b c s0 s1 s2 s3 :
    wrtn s0 <= wrtn s1 -> wrtn s2 <= wrtn s3 -> lenres n b s1 s2 -> lenres n (b ++ c) s0 s3.
  Proof. intros. change (b ++ c) with ([] ++ b ++ c). eapply lenres_weak; eauto. Qed.
  Lemma lenres_weak_l n a b s0 s1 s2 s3 :
    wrtn s0 <= wrtn s1 -> wrtn s2 <= wrtn s3 -> lenres n b s1 s2 -> lenres n (a ++ b) s0 s3.
  Proof. intros. rewrite <- (app_nil_r b). eapply lenres_weak; eauto. Qed.

  Lemma wp_do a {R} (Q : R -> _ -> _ -> _ -> Prop) QP (k : res a -> prog R) L tr s0 :
    step_ok E ro t a L s0 (fun x L' l s' => wp Q QP (k x) L' (tr ++ l) s') ->
    wp Q QP (bind (doo a) k) L tr s0.
  Proof. intros H. exact H. Qed.

  (** *** len *)
  Lemma filled_le s s' i : le s s' -> filledp s i -> filledp s' i.
  Proof. intros H. apply (le_fill _ _ H). Qed.

  Lemma wp_count {Q : nat -> _ -> _ -> _ -> Prop} {QP} L k : forall i tr s0,
    good s0 -> (forall j, j < i -> filledp s0 j) -> i + k <= cap s0 ->
    (forall n tr1 s, le s0 s -> good s -> eff tr1 = [] -> n <= k -> (forall j, j < i + n -> filledp s j) ->
       (n = k \/ exists x, x <> SOME /\ In (AcSt (i + n) x) tr1) -> Q n L (tr ++ tr1) s) ->
    wp Q QP (count_pushed i k) L tr s0.
  Proof.
    revert Q. induction k as [|k IH]; intros Q i tr s0 G F C H; cbn [seq mapP foldP filter_elems position eq_elems_list refs_of fill_elems_with fmt_elems count_pushed].
    - rewrite <- (app_nil_r tr). apply H; auto using le_refl. intros. apply F. lia.
    - apply wp_do. apply st_LoadSt; [lia|]. intros s Le G'. simpl.
      destruct (st_eqb_spec (sst (slots s i)) SOME) as [Es|Es].
      + apply wp_bind. apply IH; auto.
        * intros j Hj. destruct (Nat.eq_dec j i) as [->|].
          -- split; [pose proof (le_cap _ _ Le); lia|]. rewrite Es. discriminate.
          -- eapply filled_le; [eassumption|]. apply F. lia.
        * pose proof (le_cap _ _ Le). lia.
        * intros n tr1 s' Le' G'' E1 Hn Fn Hr. simpl. rewrite <- app_assoc. apply H; auto.
          -- eapply le_trans; eauto.
          -- lia.
          -- intros j Hj. apply Fn. lia.
          -- destruct Hr as [->|(x & Hx & Hin)]; [now left|right]. exists x. split; [assumption|].
             replace (i + S n) with (S i + n) by lia. apply in_or_app. now right.
      + apply H; auto.
        * lia.
        * intros j Hj. eapply filled_le; [eassumption|]. apply F. lia.
        * right. exists (sst (slots s i)). split; [assumption|]. replace (i + 0) with i by lia. now left.
  Qed.

  Lemma wp_len {Q : nat -> _ -> _ -> _ -> Prop} {QP} L tr s0 :
    good s0 ->
    (forall n tr1 s, le s0 s -> good s -> eff tr1 = [] -> lenres n tr1 s0 s -> Q n L (tr ++ tr1) s) ->
    wp Q QP vec_len L tr s0.
  Proof.
    intros G H. unfold vec_len.
    apply wp_do. apply st_LoadWrtn. intros s1 L1 G1.
    apply wp_do. apply st_LoadCap. intros s2 L2 G2.
    apply wp_do. apply st_LoadResv. intros s3 L3 G3.
    cbv beta zeta.
    match goal with |- context [core_iter_over_range _ ?u] => set (until := u : nat) end.
    assert (U1 : wrtn s1 <= until).
    { unfold until. pose proof (good_wrtn_cap _ _ _ G1). pose proof (good_wrtn_resv _ _ _ G1).
      pose proof (le_cap _ _ L2). pose proof (le_resv _ _ L3). pose proof (le_resv _ _ L2).
      destruct (Nat.leb_spec (resv s3) (cap s2)); lia. }
    assert (U2 : until <= cap s3).
    { unfold until. pose proof (le_cap _ _ L3). destruct (Nat.leb_spec (resv s3) (cap s2)); lia. }
    assert (UR : In (AcCap until) [AcCap (cap s2); AcResv (resv s3) : acc] \/ In (AcResv until) [AcCap (cap s2); AcResv (resv s3) : acc]).
    { unfold until. destruct (Nat.leb_spec (resv s3) (cap s2)); simpl; auto. }
    clearbody until.
    apply wp_bind. apply wp_do. apply st_IterRange; auto. intros s4 L4 G4. simpl.
    apply wp_bind. apply wp_count; auto.
    { intros j Hj. pose proof (good_filled_wrtn _ _ _ _ G1 Hj). eauto using filled_le. }
    { pose proof (le_cap _ _ L4). lia. }
    intros n tr1 s5 L5 G5 E1 Hn Fn Hr. simpl.
    apply wp_do. apply st_MaxWrtn; [intros; now apply Fn|]. intros s6 L6 G6 Hw _. simpl.
    rewrite !app_nil_r, <- !app_assoc. apply H.
    - eauto 10 using le_trans.
    - assumption.
    - simpl. exact E1.
    - split; [pose proof (le_wrtn _ _ L1); lia|].
      destruct Hr as [->|(x & Hx & Hin)].
      + replace (wrtn s1 + (until - wrtn s1)) with until by lia.
        destruct UR as [U|U]; [left|right; left]; simpl in *; intuition.
      + right; right. exists x. split; [assumption|]. simpl. auto.
  Qed.

  (** *** elements *)
  Lemma wp_handle {Q : bool -> _ -> _ -> _ -> Prop} {QP} i L tr s0 :
    i < cap s0 -> (nl = true -> L = []) ->
    (forall s, le s0 s -> good s -> filledp s i -> Q true (TLock i LHeld :: L) tr s) ->
    (forall s, le s0 s -> good s -> ~ filledp s0 i -> Q false L (tr ++ [AcSt i NONE]) s) ->
    wp Q QP (spin_handle i SOME) L tr s0.
  Proof.
    intros Hi Hnl H1 H2. unfold spin_handle. apply sp_Cas; auto.
    intros. simpl. rewrite app_nil_r. apply H1; auto.
  Qed.

  Lemma wp_option_map {U} {Q : option U -> _ -> _ -> _ -> Prop} {QP : panic -> _ -> _ -> _ -> Prop} i (f : V -> option U) L tr s0 :
    i < cap s0 -> (nl = true -> L = []) ->
    (forall v s, le s0 s -> good s -> filledp s i ->
       match f v with
       | Some u => Q (Some u) L (tr ++ [AcRead i v]) s
       | None => QP PClosure L (tr ++ [AcRead i v]) s
       end) ->
    (forall s, le s0 s -> good s -> ~ filledp s0 i -> Q None L (tr ++ [AcSt i NONE]) s) ->
    wp Q QP (option_map i f) L tr s0.
  Proof.
    intros Hi Hnl H1 H2. unfold option_map. apply wp_bind. apply wp_handle; auto.
    intros s1 L1 G1 F1. simpl.
    apply wp_do. apply st_RdBeg. intros s2 L2 G2.
    apply wp_do. apply st_RdEnd. intros v s3 L3 G3.
    apply wp_do. apply st_Unlock. intros s4 L4 G4 F4. rewrite !app_nil_r.
    specialize (H1 v s4 ltac:(eauto 10 using le_trans) G4 F4). destruct (f v); exact H1.
  Qed.

  Lemma wp_elem_map {U} {Q : U -> _ -> _ -> _ -> Prop} {QP : panic -> _ -> _ -> _ -> Prop} i (f : V -> option U) L tr s0 :
    filledp s0 i -> (nl = true -> L = []) ->
    (forall v s, le s0 s -> good s -> filledp s i ->
       match f v with
       | Some u => Q u L (tr ++ [AcRead i v]) s
       | None => QP PClosure L (tr ++ [AcRead i v]) s
       end) ->
    wp Q QP (elem_map i f) L tr s0.
  Proof.
    intros F Hnl H. unfold elem_map. apply wp_bind. apply wp_option_map; auto.
    - apply F.
    - intros s X1 X2 X3. now destruct X3.
  Qed.

  Lemma wp_elem_cloned {Q : V -> _ -> _ -> _ -> Prop} {QP} i L tr s0 :
    filledp s0 i -> (nl = true -> L = []) ->
    (forall v s, le s0 s -> good s -> filledp s i -> Q v L (tr ++ [AcRead i v]) s) ->
    wp Q QP (elem_cloned i) L tr s0.
  Proof. intros F Hnl H. apply (wp_elem_map i (fun v => Some v)); auto. Qed.

  Lemma wp_elem_replace {Q : V -> _ -> _ -> _ -> Prop} {QP} i v L tr s0 :
    ro = false -> filledp s0 i -> (nl = true -> L = []) ->
    (forall old s, le s0 s -> good s -> Q old L (tr ++ [AcWrite i old v]) s) ->
    wp Q QP (elem_replace i v) L tr s0.
  Proof.
    intros Hro F Hnl H. unfold elem_replace, option_replace. apply wp_bind. apply wp_bind.
    apply wp_handle; auto; [apply F| |intros s X1 X2 X3; now destruct X3].
    intros s1 L1 G1 F1. simpl.
    apply wp_do. apply st_WrBeg; [assumption|]. intros s2 L2 G2.
    apply wp_do. apply (st_WrEnd E ro t i (fun _ => v)). intros old s3 L3 G3.
    apply wp_do. apply st_Unlock. intros s4 L4 G4 F4. rewrite !app_nil_r.
    apply H; eauto 10 using le_trans.
  Qed.

  Lemma wp_elem_set {Q : unit -> _ -> _ -> _ -> Prop} {QP} i v L tr s0 :
    ro = false -> filledp s0 i -> (nl = true -> L = []) ->
    (forall old s, le s0 s -> good s -> Q tt L (tr ++ [AcWrite i old v]) s) ->
    wp Q QP (elem_set i v) L tr s0.
  Proof.
    intros Hro F Hnl H. unfold elem_set, option_set_some. apply wp_bind. apply wp_bind.
    apply wp_handle; auto; [apply F| |intros s X1 X2 X3; now destruct X3].
    intros s1 L1 G1 F1. simpl.
    apply wp_do. apply st_WrBeg; [assumption|]. intros s2 L2 G2.
    apply wp_do. apply (st_WrEnd E ro t i (fun _ => v)). intros old s3 L3 G3.
    apply wp_do. apply st_Unlock. intros s4 L4 G4 F4. rewrite !app_nil_r.
    apply (H old); eauto 10 using le_trans.
  Qed.

  Lemma wp_elem_update {Q : unit -> _ -> _ -> _ -> Prop} {QP : panic -> _ -> _ -> _ -> Prop} i (f : V -> V * bool) L tr s0 :
    ro = false -> filledp s0 i -> (nl = true -> L = []) ->
    (forall old s, le s0 s -> good s ->
       if snd (f old) then Q tt L (tr ++ [AcWrite i old (fst (f old))]) s
       else QP PClosure L (tr ++ [AcWrite i old (fst (f old))]) s) ->
    wp Q QP (elem_update i f) L tr s0.
  Proof.
    intros Hro F Hnl H. unfold elem_update, option_update. apply wp_bind. apply wp_bind.
    apply wp_handle; auto; [apply F| |intros s X1 X2 X3; now destruct X3].
    intros s1 L1 G1 F1. simpl.
    apply wp_do. apply st_WrBeg; [assumption|]. intros s2 L2 G2.
    apply wp_do. apply (st_WrEnd E ro t i (fun v => fst (f v))). intros old s3 L3 G3.
    apply wp_do. apply st_Unlock. intros s4 L4 G4 F4. rewrite !app_nil_r.
    specialize (H old s4 ltac:(eauto 10 using le_trans) G4). destruct (snd (f old)); exact H.
  Qed.

  (** *** loops over elements *)
  Definition frange (s : shared) (a n : nat) : Prop := forall i, a <= i < a + n -> filledp s i.
  Lemma frange_tl s s' a n : le s s' -> frange s a (S n) -> frange s' (S a) n.
  Proof. intros Le H i Hi. eapply filled_le; [eassumption|]. apply H. lia. Qed.
  Lemma frange_hd s a n : frange s a (S n) -> filledp s a.
  Proof. intros H. apply H. lia. Qed.
  Lemma frange_wrtn s n : good s -> n <= wrtn s -> frange s 0 n.
  Proof. intros G H i Hi. eapply good_filled_wrtn; eauto. lia. Qed.

  Lemma reads_snoc a (vs : list V) v : reads a (vs ++ [v]) = reads a vs ++ [AcRead (a + length vs) v].
  Proof.
    revert a. induction vs; intros b; simpl.
    - now replace (b + 0) with b by lia.
    - rewrite IHvs. now replace (S b + length vs) with (b + S (length vs)) by lia.
  Qed.

  Lemma wp_map_elems {U} {Q : list U -> _ -> _ -> _ -> Prop} {QP : panic -> _ -> _ -> _ -> Prop} (f : nat -> V -> option U) L n : forall a tr s0,
    good s0 -> frange s0 a n -> (nl = true -> L = []) ->
    (forall vs us s, le s0 s -> good s -> length vs = n -> mapn f vs = map Some us -> Q us L (tr ++ reads a vs) s) ->
    (forall vs s, le s0 s -> good s -> length vs <= n -> stops f vs -> QP PClosure L (tr ++ reads a vs) s) ->
    wp Q QP (map_elems (seq a n) f) L tr s0.
  Proof.
    revert Q f. induction n as [|n IH]; intros Q f a tr s0 G F Hnl H HP; cbn [seq map_elems foldP filter_elems position eq_elems_list refs_of fill_elems_with fmt_elems count_pushed].
    - rewrite <- (app_nil_r tr). apply (H [] []); auto using le_refl.
    - apply wp_bind. apply wp_elem_map; auto; [eapply frange_hd; eauto|].
      intros v s L1 G1 F1. destruct (f 0 v) as [u|] eqn:Fv.
      + apply wp_bind. apply IH; auto; [eapply frange_tl; eauto| |].
        * intros vs us s' L2 G2 Hl Hm. simpl. rewrite <- app_assoc. apply (H (v :: vs) (u :: us)); simpl; try congruence.
          eauto using le_trans.
        * intros vs s' L2 G2 Hl Hs. rewrite <- app_assoc. apply (HP (v :: vs)); simpl; [eauto using le_trans|assumption|lia|now rewrite Fv].
      + apply (HP [v]); simpl; auto; [lia|now rewrite Fv].
  Qed.

  Lemma wp_clone_elems {Q : list V -> _ -> _ -> _ -> Prop} {QP : panic -> _ -> _ -> _ -> Prop} L n : forall a tr s0,
    good s0 -> frange s0 a n -> (nl = true -> L = []) ->
    (forall vs s, le s0 s -> good s -> length vs = n -> Q vs L (tr ++ reads a vs) s) ->
    wp Q QP (mapP elem_cloned (seq a n)) L tr s0.
  Proof.
    revert Q. induction n as [|n IH]; intros Q a tr s0 G F Hnl H; cbn [seq mapP].
    - rewrite <- (app_nil_r tr). apply (H []); auto using le_refl.
    - apply wp_bind. apply wp_elem_cloned; auto; [eapply frange_hd; eauto|].
      intros v s L1 G1 F1. apply wp_bind. apply IH; auto; [eapply frange_tl; eauto|].
      intros vs s' L2 G2 Hl. simpl. rewrite <- app_assoc. apply (H (v :: vs)); simpl; try congruence.
      eauto using le_trans.
  Qed.

  Lemma wp_next_elems {Q : list (piece V) -> _ -> _ -> _ -> Prop} {QP : panic -> _ -> _ -> _ -> Prop} L n : forall a tr s0,
    good s0 -> frange s0 a n -> (nl = true -> L = []) ->
    (forall vs s, le s0 s -> good s -> length vs = n -> Q (map PNext vs) L (tr ++ reads a vs) s) ->
    wp Q QP (mapP (fun e => elem_map e (fun x => Some (PNext x))) (seq a n)) L tr s0.
  Proof.
    revert Q. induction n as [|n IH]; intros Q a tr s0 G F Hnl H; cbn [seq mapP foldP filter_elems position eq_elems_list refs_of fill_elems_with fmt_elems count_pushed].
    - rewrite <- (app_nil_r tr). apply (H []); auto using le_refl.
    - apply wp_bind. apply wp_elem_map; auto; [eapply frange_hd; eauto|].
      intros v s L1 G1 F1. apply wp_bind. apply IH; auto; [eapply frange_tl; eauto|].
      intros vs s' L2 G2 Hl. simpl. rewrite <- app_assoc. apply (H (v :: vs)); simpl; try congruence.
      eauto using le_trans.
  Qed.

  Lemma wp_fmt_elems {Q : list (piece V) -> _ -> _ -> _ -> Prop} {QP : panic -> _ -> _ -> _ -> Prop} L n : forall a tr s0,
    good s0 -> frange s0 a n -> (nl = true -> L = []) ->
    (forall vs s, le s0 s -> good s -> length vs = n -> Q (pieces vs) L (tr ++ reads a vs) s) ->
    wp Q QP (fmt_elems (seq a n)) L tr s0.
  Proof.
    intros a tr s0 G F Hnl H. destruct n as [|n]; cbn [seq mapP foldP filter_elems position eq_elems_list refs_of fill_elems_with fmt_elems count_pushed].
    - rewrite <- (app_nil_r tr). apply (H []); auto using le_refl.
    - apply wp_bind. apply wp_elem_map; auto; [eapply frange_hd; eauto|].
      intros v s L1 G1 F1. apply wp_bind. apply wp_next_elems; auto; [eapply frange_tl; eauto|].
      intros vs s' L2 G2 Hl. simpl. rewrite <- app_assoc. apply (H (v :: vs)); simpl; try congruence.
      eauto using le_trans.
  Qed.

  Lemma wp_filter_elems {Q : list nat -> _ -> _ -> _ -> Prop} {QP : panic -> _ -> _ -> _ -> Prop} (f : nat -> V -> option bool) L n : forall a tr s0,
    good s0 -> frange s0 a n -> (nl = true -> L = []) ->
    (forall vs bs s, le s0 s -> good s -> length vs = n -> mapn f vs = map Some bs -> Q (pick a bs) L (tr ++ reads a vs) s) ->
    (forall vs s, le s0 s -> good s -> length vs <= n -> stops f vs -> QP PClosure L (tr ++ reads a vs) s) ->
    wp Q QP (filter_elems (seq a n) f) L tr s0.
  Proof.
    revert Q f. induction n as [|n IH]; intros Q f a tr s0 G F Hnl H HP; cbn [seq mapP foldP filter_elems position eq_elems_list refs_of fill_elems_with fmt_elems count_pushed].
    - rewrite <- (app_nil_r tr). apply (H [] []); auto using le_refl.
    - apply wp_bind. apply wp_elem_map; auto; [eapply frange_hd; eauto|].
      intros v s L1 G1 F1. destruct (f 0 v) as [u|] eqn:Fv.
      + apply wp_bind. apply IH; auto; [eapply frange_tl; eauto| |].
        * intros vs us s' L2 G2 Hl Hm. simpl. rewrite <- app_assoc. apply (H (v :: vs) (u :: us)); simpl; try congruence.
          eauto using le_trans.
        * intros vs s' L2 G2 Hl Hs. rewrite <- app_assoc. apply (HP (v :: vs)); simpl; [eauto using le_trans|assumption|lia|now rewrite Fv].
      + apply (HP [v]); simpl; auto; [lia|now rewrite Fv].
  Qed.

  Lemma wp_fold_elems {U} {Q : U -> _ -> _ -> _ -> Prop} {QP : panic -> _ -> _ -> _ -> Prop} (f : nat -> U -> V -> option U) L n : forall u a tr s0,
    good s0 -> frange s0 a n -> (nl = true -> L = []) ->
    (forall vs u' s, le s0 s -> good s -> length vs = n -> ofold f u vs = Some u' -> Q u' L (tr ++ reads a vs) s) ->
    (forall vs s, le s0 s -> good s -> length vs <= n -> fold_stops f u vs -> QP PClosure L (tr ++ reads a vs) s) ->
    wp Q QP (fold_elems (seq a n) u f) L tr s0.
  Proof.
    revert f. induction n as [|n IH]; intros f u a tr s0 G F Hnl H HP; cbn [seq fold_elems foldP filter_elems position eq_elems_list refs_of fill_elems_with fmt_elems count_pushed].
    - rewrite <- (app_nil_r tr). apply (H []); auto using le_refl.
    - apply wp_bind. apply wp_elem_map; auto; [eapply frange_hd; eauto|].
      intros v s L1 G1 F1. destruct (f 0 u v) as [u1|] eqn:Fv.
      + apply IH; auto; [eapply frange_tl; eauto| |].
        * intros vs us s' L2 G2 Hl Hm. rewrite <- app_assoc. apply (H (v :: vs)); simpl; try congruence.
          -- eauto using le_trans.
          -- now rewrite Fv.
        * intros vs s' L2 G2 Hl Hs. rewrite <- app_assoc. apply (HP (v :: vs)); simpl; [eauto using le_trans|assumption|lia|now rewrite Fv].
      + apply (HP [v]); simpl; auto; [lia|now rewrite Fv].
  Qed.

  Lemma wp_fill_elems {Q : unit -> _ -> _ -> _ -> Prop} {QP : panic -> _ -> _ -> _ -> Prop} v L n : forall a tr s0,
    ro = false -> good s0 -> frange s0 a n -> (nl = true -> L = []) ->
    (forall olds s, le s0 s -> good s -> length olds = n -> Q tt L (tr ++ writes a (map (fun o => (o, v)) olds)) s) ->
    wp Q QP (fill_elems (seq a n) v) L tr s0.
  Proof.
    unfold fill_elems. induction n as [|n IH]; intros a tr s0 Hro G F Hnl H; cbn [seq mapP foldP filter_elems position eq_elems_list refs_of fill_elems_with fmt_elems count_pushed].
    - rewrite <- (app_nil_r tr). apply (H []); auto using le_refl.
    - apply wp_bind. apply wp_elem_set; auto; [eapply frange_hd; eauto|].
      intros old s L1 G1. apply IH; auto; [eapply frange_tl; eauto|].
      intros olds s' L2 G2 Hl. rewrite <- app_assoc. apply (H (old :: olds)); simpl; try congruence.
      eauto using le_trans.
  Qed.

  Lemma wp_fill_elems_with {Q : unit -> _ -> _ -> _ -> Prop} {QP : panic -> _ -> _ -> _ -> Prop} f L n : forall k a tr s0,
    ro = false -> good s0 -> frange s0 a n -> (nl = true -> L = []) ->
    (forall ps s, le s0 s -> good s -> length ps = n ->
        (forall j p, nth_error ps j = Some p -> f (k + j) = Some (snd p)) -> Q tt L (tr ++ writes a ps) s) ->
    (forall ps s, le s0 s -> good s -> length ps < n -> f (k + length ps) = None ->
        (forall j p, nth_error ps j = Some p -> f (k + j) = Some (snd p)) -> QP PClosure L (tr ++ writes a ps) s) ->
    wp Q QP (fill_elems_with k (seq a n) f) L tr s0.
  Proof.
    induction n as [|n IH]; intros k a tr s0 Hro G F Hnl H HP; cbn [seq mapP foldP filter_elems position eq_elems_list refs_of fill_elems_with fmt_elems count_pushed].
    - rewrite <- (app_nil_r tr). apply (H []); auto using le_refl. intros [|j] p; discriminate.
    - apply wp_bind. apply wp_chk.
      + intros v Fv. apply wp_bind. apply wp_elem_set; auto; [eapply frange_hd; eauto|].
        intros old s L1 G1. apply IH; auto; [eapply frange_tl; eauto| |].
        * intros ps s' L2 G2 Hl Hp. rewrite <- app_assoc. apply (H ((old, v) :: ps)); simpl; try congruence.
          -- eauto using le_trans.
          -- intros [|j] p; simpl; [intros [= <-]; now replace (k + 0) with k by lia|].
             intros Hj. replace (k + S j) with (S k + j) by lia. now apply Hp.
        * intros ps s' L2 G2 Hl Hp Hq. rewrite <- app_assoc. apply (HP ((old, v) :: ps)); simpl.
          -- eauto using le_trans.
          -- assumption.
          -- lia.
          -- now replace (k + S (length ps)) with (S k + length ps) by lia.
          -- intros [|j] p; simpl; [intros [= <-]; now replace (k + 0) with k by lia|].
             intros Hj. replace (k + S j) with (S k + j) by lia. now apply Hq.
      + intros Fn. rewrite <- (app_nil_r tr). apply (HP []); simpl; auto using le_refl; [lia| |intros [|j] p; discriminate].
        now replace (k + 0) with k by lia.
  Qed.

  Lemma wp_position {Q : option nat -> _ -> _ -> _ -> Prop} {QP : panic -> _ -> _ -> _ -> Prop} v L n : forall k a tr s0,
    good s0 -> frange s0 a n -> (nl = true -> L = []) ->
    (forall vs s, le s0 s -> good s -> length vs = n -> (forall x, In x vs -> eqv E x v = false) -> Q None L (tr ++ reads a vs) s) ->
    (forall vs j s, le s0 s -> good s -> j < n -> length vs = S j ->
        (forall i x, nth_error vs i = Some x -> eqv E x v = (i =? j)) -> Q (Some (k + j)) L (tr ++ reads a vs) s) ->
    wp Q QP (position E k (seq a n) v) L tr s0.
  Proof.
    induction n as [|n IH]; intros k a tr s0 G F Hnl HN HS; cbn [seq mapP foldP filter_elems position eq_elems_list refs_of fill_elems_with fmt_elems count_pushed].
    - rewrite <- (app_nil_r tr). apply (HN []); auto using le_refl. intros x [].
    - apply wp_bind. apply wp_elem_map; auto; [eapply frange_hd; eauto|].
      intros x s L1 G1 F1. destruct (eqv E x v) eqn:Ev.
      + simpl. replace (Some k) with (Some (k + 0)) by (f_equal; lia). apply (HS [x]); simpl; auto; [lia|].
        intros [|i] y; simpl; [intros [= <-]; assumption|destruct i; discriminate].
      + apply IH; auto; [eapply frange_tl; eauto| |].
        * intros vs s' L2 G2 Hl Hx. rewrite <- app_assoc. apply (HN (x :: vs)); simpl; try congruence.
          -- eauto using le_trans.
          -- intros y [<-|Hy]; auto.
        * intros vs j s' L2 G2 Hj Hl Hx. rewrite <- app_assoc.
          replace (S k + j) with (k + S j) by lia. apply (HS (x :: vs)); simpl; try congruence.
          -- eauto using le_trans.
          -- lia.
          -- intros [|i] y; simpl; [intros [= <-]; assumption|]. apply Hx.
  Qed.

  Lemma wp_eq_elems {Q : bool -> _ -> _ -> _ -> Prop} {QP : panic -> _ -> _ -> _ -> Prop} L n : forall l a tr s0,
    good s0 -> frange s0 a n -> (nl = true -> L = []) ->
    (forall vs b s, le s0 s -> good s -> length vs <= n -> length vs <= length l ->
      (if b : bool then n = length l /\ length vs = n /\ Forall2 (fun x y => eqv E x y = true) vs l
      else (exists vs' x y, vs = vs' ++ [x] /\ nth_error l (length vs') = Some y /\ eqv E x y = false /\
                            Forall2 (fun x y => eqv E x y = true) vs' (firstn (length vs') l))
           \/ (n <> length l /\ length vs = Nat.min n (length l) /\
               Forall2 (fun x y => eqv E x y = true) vs (firstn (length vs) l))) -> Q b L (tr ++ reads a vs) s) ->
    wp Q QP (eq_elems_list E (seq a n) l) L tr s0.
  Proof.
    induction n as [|n IH]; intros l a tr s0 G F Hnl H; cbn [seq mapP foldP filter_elems position eq_elems_list refs_of fill_elems_with fmt_elems count_pushed].
    - rewrite <- (app_nil_r tr). destruct l as [|y l]; simpl; apply (H []); simpl; auto using le_refl; try lia.
    - destruct l as [|y l].
      + rewrite <- (app_nil_r tr). simpl. apply (H []); simpl; auto using le_refl; try lia.
      + apply wp_bind. apply wp_option_map; auto; [apply (frange_hd _ _ _ F)| |].
        * intros x s L1 G1 F1. destruct (eqv E x y) eqn:Ev.
          -- apply IH; auto; [eapply frange_tl; eauto|].
             intros vs b s' L2 G2 Hl Hl' Hb. rewrite <- app_assoc. apply (H (x :: vs)); simpl; try lia.
             ++ eauto using le_trans.
             ++ assumption.
             ++ destruct b.
                ** destruct Hb as (B1 & B2 & B3). repeat split; try lia. constructor; auto.
                ** destruct Hb as [(vs' & x' & y' & B1 & B2 & B3 & B4)|(B1 & B2 & B3)].
                   --- left. exists (x :: vs'), x', y'. subst vs. simpl. repeat split; auto.
                   --- right. repeat split; try lia. constructor; auto.
          -- simpl. apply (H [x]); simpl; auto; try lia. left. exists [], x, y. simpl. auto.
        * intros s _ _ N. destruct N. apply (frange_hd _ _ _ F).
  Qed.

  (** *** references *)
  Lemma wp_core_get {Q : option nat -> _ -> _ -> _ -> Prop} {QP : panic -> _ -> _ -> _ -> Prop} i L tr s0 :
    (forall s, le s0 s -> good s -> Q (if i <? cap s then Some i else None) L (tr ++ [AcCap (cap s)]) s) ->
    wp Q QP (core_get i) L tr s0.
  Proof. intros H. unfold core_get. apply wp_do. apply st_LoadCap. intros s Le G. apply H; auto. Qed.

  Lemma wp_core_get_in {Q : option nat -> _ -> _ -> _ -> Prop} {QP : panic -> _ -> _ -> _ -> Prop} i L tr s0 :
    i < cap s0 ->
    (forall s c, le s0 s -> good s -> i < c -> Q (Some i) L (tr ++ [AcCap c]) s) ->
    wp Q QP (core_get i) L tr s0.
  Proof.
    intros Hi H. apply wp_core_get. intros s Le G. pose proof (le_cap _ _ Le).
    destruct (Nat.ltb_spec i (cap s)); [|lia]. apply H; auto.
  Qed.

  Lemma wp_iter_range {Q : list nat -> _ -> _ -> _ -> Prop} {QP : panic -> _ -> _ -> _ -> Prop} a b L tr s0 :
    a <= b -> b <= cap s0 ->
    (forall s, le s0 s -> good s -> Q (seq a (b - a)) L tr s) ->
    wp Q QP (core_iter_over_range a b) L tr s0.
  Proof.
    intros Ha Hb H. apply wp_do. apply st_IterRange; auto. intros s Le G. rewrite app_nil_r. apply H; auto.
  Qed.

  Lemma wp_iter {Q : list nat -> _ -> _ -> _ -> Prop} {QP : panic -> _ -> _ -> _ -> Prop} L tr s0 :
    good s0 ->
    (forall n tr1 s, le s0 s -> good s -> eff tr1 = [] -> lenres n tr1 s0 s -> frange s 0 n ->
        Q (seq 0 n) L (tr ++ tr1) s) ->
    wp Q QP vec_iter L tr s0.
  Proof.
    intros G H. unfold vec_iter. apply wp_bind. apply wp_len; auto.
    intros n tr1 s L1 G1 E1 R1. apply wp_iter_range; [lia| |].
    - destruct R1 as [[_ R] _]. pose proof (good_wrtn_cap _ _ _ G1). lia.
    - intros s2 L2 G2. replace (n - 0) with n by lia. apply H; auto.
      + eauto using le_trans.
      + destruct R1 as [R R']. split; [|assumption]. pose proof (le_wrtn _ _ L2). lia.
      + apply frange_wrtn; auto. destruct R1 as [R _]. pose proof (le_wrtn _ _ L2). lia.
  Qed.

  Lemma wp_slice_iter {Q : list nat -> _ -> _ -> _ -> Prop} {QP : panic -> _ -> _ -> _ -> Prop} x L tr s0 :
    sl_a x + sl_len x <= cap s0 ->
    (forall s, le s0 s -> good s -> Q (seq (sl_a x) (sl_len x)) L tr s) ->
    wp Q QP (slice_iter x) L tr s0.
  Proof.
    intros Hc H. unfold slice_iter. apply wp_iter_range; [lia|assumption|].
    intros. replace (sl_a x + sl_len x - sl_a x) with (sl_len x) by lia. auto.
  Qed.

  Lemma wp_refs {Q : list nat -> _ -> _ -> _ -> Prop} {QP : panic -> _ -> _ -> _ -> Prop} L n : forall a tr s0,
    a + n <= cap s0 ->
    good s0 ->
    (forall bs tr1 s, le s0 s -> good s -> length bs = n -> eff tr1 = [] ->
       (forall k b, nth_error bs k = Some b -> exists x, In (AcSt (a + k) x) tr1 /\ b = st_eqb x SOME) ->
       (forall i, In i (pick a bs) -> filledp s i) ->
       Q (pick a bs) L (tr ++ tr1) s) ->
    wp Q QP (refs_of (seq a n)) L tr s0.
  Proof.
    revert Q. induction n as [|n IH]; intros Q a tr s0 Hc G0 H; cbn [seq mapP foldP filter_elems position eq_elems_list refs_of fill_elems_with fmt_elems count_pushed].
    - rewrite <- (app_nil_r tr). apply (H []); auto using le_refl; [intros [|k] b; discriminate|intros i []].
    - apply wp_bind. apply wp_do. apply st_LoadSt; [lia|]. intros s L1 G1. simpl.
      apply wp_bind. apply IH; [pose proof (le_cap _ _ L1); lia|assumption|].
      intros bs tr1 s' L2 G2 Hl He Hb Hf. simpl. rewrite <- app_assoc.
      apply (H (st_eqb (sst (slots s a)) SOME :: bs)); simpl; try congruence.
      + eauto using le_trans.
      + intros [|k] b; simpl.
        * intros [= <-]. eexists. replace (a + 0) with a by lia. split; [now left|reflexivity].
        * intros Hk. destruct (Hb k b Hk) as (x & X1 & X2). exists x. replace (a + S k) with (S a + k) by lia. auto.
      + intros i Hi. destruct (st_eqb_spec (sst (slots s a)) SOME) as [Es|]; [|now apply Hf].
        destruct Hi as [<-|Hi]; [|now apply Hf]. eapply filled_le; [eassumption|].
        split; [pose proof (le_cap _ _ L1); lia|]. rewrite Es. discriminate.
  Qed.

  Lemma wp_reserved_len {Q : nat -> _ -> _ -> _ -> Prop} {QP : panic -> _ -> _ -> _ -> Prop} L tr s0 :
    (forall n tr1 s, le s0 s -> good s -> eff tr1 = [] -> n <= cap s -> In (AcResv n) tr1 \/ In (AcCap n) tr1 ->
        Q n L (tr ++ tr1) s) ->
    wp Q QP reserved_len L tr s0.
  Proof.
    intros H. unfold reserved_len. apply wp_bind. apply wp_do. apply st_LoadResv. intros s1 L1 G1. simpl.
    apply wp_do. apply st_LoadCap. intros s2 L2 G2. simpl. rewrite <- app_assoc.
    apply H; auto.
    - eauto using le_trans.
    - destruct (Nat.leb_spec (resv s1) (cap s2)); lia.
    - destruct (Nat.leb_spec (resv s1) (cap s2)); simpl; auto.
  Qed.

  Lemma wp_get_ref {Q : option nat -> _ -> _ -> _ -> Prop} {QP : panic -> _ -> _ -> _ -> Prop} i L tr s0 :
    (forall tr1 s, le s0 s -> good s -> eff tr1 = [] -> In (AcSt i SOME) tr1 -> filledp s i -> Q (Some i) L (tr ++ tr1) s) ->
    (forall tr1 s, le s0 s -> good s -> eff tr1 = [] -> absent i tr1 \/ In (AcSt i RESERVED) tr1 -> Q None L (tr ++ tr1) s) ->
    wp Q QP (vec_get_ref i) L tr s0.
  Proof.
    intros HS HN. unfold vec_get_ref. apply wp_bind. apply wp_reserved_len.
    intros n tr1 s1 L1 G1 E1 C1 R1. destruct (Nat.ltb_spec i n) as [Hi|Hi].
    - apply wp_bind. apply wp_core_get_in; [lia|]. intros s2 c L2 G2 Hc.
      apply wp_bind. apply wp_do. apply st_LoadSt; [pose proof (le_cap _ _ L2); lia|].
      intros s3 L3 G3. simpl. rewrite <- !app_assoc.
      destruct (sst (slots s3 i)) eqn:Es; simpl.
      + apply HN; eauto 10 using le_trans; [rewrite !eff_app, E1; reflexivity|].
        left. right. rewrite !in_app_iff. simpl. auto.
      + apply HN; eauto 10 using le_trans; [rewrite !eff_app, E1; reflexivity|].
        right. rewrite !in_app_iff. simpl. auto.
      + apply HS; eauto 10 using le_trans; [rewrite !eff_app, E1; reflexivity| |].
        * rewrite !in_app_iff. simpl. auto.
        * split; [pose proof (le_cap _ _ L2); pose proof (le_cap _ _ L3); lia|]. rewrite Es. discriminate.
    - simpl. apply HN; auto. left. left. exists n. auto.
  Qed.

  (** *** slices of the vector *)
  Lemma wp_usub {Q : nat -> _ -> _ -> _ -> Prop} {QP : panic -> _ -> _ -> _ -> Prop} a b L tr s0 :
    (b <= a -> Q (a - b) L tr s0) ->
    (a < b -> ochk E = true /\ QP POverflow L tr s0) ->
    wp Q QP (chk POverflow (usub E a b)) L tr s0.
  Proof.
    intros H1 H2. unfold usub. destruct (Nat.leb_spec b a) as [H|H].
    - exact (H1 H).
    - destruct (H2 H) as [-> H3]. exact H3.
  Qed.

  Lemma range_limits_le r n p q : range_limits E r n = Some (p, q) -> p <= n /\ q <= n.
  Proof.
    unfold range_limits. destruct (fst r) as [a|a|], (snd r) as [b|b|]; simpl;
      repeat match goal with |- context [uadd E ?x 1] => destruct (uadd E x 1) end;
      try discriminate; intros [= <- <-]; lia.
  Qed.
  Lemma range_limits_none r n : range_limits E r n = None -> ochk E = true.
  Proof.
    unfold range_limits, uadd. destruct (fst r) as [a|a|], (snd r) as [b|b|], (ochk E); auto;
      repeat match goal with |- context [?x <? ?y] => destruct (x <? y) end; discriminate.
  Qed.

  Lemma wp_limits {Q : cslice -> _ -> _ -> _ -> Prop} {QP : panic -> _ -> _ -> _ -> Prop} r n a L tr s0 :
    range_ok E r ->
    (forall p q, range_limits E r n = Some (p, q) -> p <= q <= n -> Q (CSlice (a + p) (q - p)) L tr s0) ->
    (ochk E = true -> (forall p q, range_limits E r n = Some (p, q) -> q < p) -> QP POverflow L tr s0) ->
    wp Q QP (bind (chk POverflow (range_limits E r n)) (fun ab =>
             bind (chk POverflow (usub E (snd ab) (fst ab))) (fun len =>
             Ret (CSlice (a + fst ab) len)))) L tr s0.
  Proof.
    intros HR H HP. apply wp_bind. apply wp_chk.
    - intros [p q] Er. simpl. destruct (range_limits_le _ _ _ _ Er). apply wp_bind. apply wp_usub.
      + intros. simpl. apply H; auto.
      + intros Hlt. destruct HR as [HR|HR]; [|specialize (HR _ _ _ Er); lia]. split; [assumption|]. apply HP; [assumption|].
        intros p' q' Er'. rewrite Er in Er'. injection Er' as <- <-. assumption.
    - intros Er. apply HP; [exact (range_limits_none _ _ Er)|]. congruence.
  Qed.

  Lemma wp_slice {Q : cslice -> _ -> _ -> _ -> Prop} {QP : panic -> _ -> _ -> _ -> Prop} r L tr s0 :
    good s0 -> range_ok E r ->
    (forall n p q tr1 s, le s0 s -> good s -> eff tr1 = [] -> lenres n tr1 s0 s ->
        range_limits E r n = Some (p, q) -> p <= q <= n -> Q (CSlice p (q - p)) L (tr ++ tr1) s) ->
    (forall n tr1 s, le s0 s -> good s -> eff tr1 = [] -> lenres n tr1 s0 s -> ochk E = true ->
        (forall p q, range_limits E r n = Some (p, q) -> q < p) -> QP POverflow L (tr ++ tr1) s) ->
    wp Q QP (vec_slice E r) L tr s0.
  Proof.
    intros G HR H HP. unfold vec_slice. apply wp_bind. apply wp_len; auto.
    intros n tr1 s L1 G1 E1 R1. apply (wp_limits r n 0); auto.
    - intros. replace (0 + p) with p by lia. eapply H; eauto.
    - intros. eapply HP; eauto.
  Qed.

  Lemma rng_limits a b n : a <= b -> range_limits E (rng a b) n = Some (Nat.min a n, Nat.min b n).
  Proof. reflexivity. Qed.
  Lemma rng_ok a b : a <= b -> range_ok E (rng a b).
  Proof. intros H. right. intros n p q. simpl. intros [= <- <-]. lia. Qed.
  Lemma rng_from_ok a : range_ok E (rng_from a).
  Proof. right. intros n p q. unfold range_limits, rng_from. simpl. intros [= <- <-]. lia. Qed.

  (** [vec.slice(a..b)] for a range known to be inside the vector *)
  Lemma wp_slice_in {Q : cslice -> _ -> _ -> _ -> Prop} {QP : panic -> _ -> _ -> _ -> Prop} a b L tr s0 :
    good s0 -> a <= b -> b <= wrtn s0 ->
    (forall tr1 s, le s0 s -> good s -> eff tr1 = [] -> Q (CSlice a (b - a)) L (tr ++ tr1) s) ->
    wp Q QP (vec_slice E (rng a b)) L tr s0.
  Proof.
    intros G Hab Hb H. unfold vec_slice. apply wp_bind. apply wp_len; auto.
    intros n tr1 s L1 G1 E1 [R1 _]. rewrite rng_limits by assumption. simpl.
    apply wp_bind. apply wp_usub; [|lia].
    intros _. simpl. replace (Nat.min a n) with a by lia. replace (Nat.min b n - a) with (b - a) by lia. apply H; auto.
  Qed.

  Lemma wp_slice_from {Q : cslice -> _ -> _ -> _ -> Prop} {QP : panic -> _ -> _ -> _ -> Prop} a L tr s0 :
    good s0 -> a <= wrtn s0 ->
    (forall n tr1 s, le s0 s -> good s -> eff tr1 = [] -> lenres n tr1 s0 s -> Q (CSlice a (n - a)) L (tr ++ tr1) s) ->
    wp Q QP (vec_slice E (rng_from a)) L tr s0.
  Proof.
    intros G Hb H. unfold vec_slice. apply wp_bind. apply wp_len; auto.
    intros n tr1 s L1 G1 E1 R1. pose proof R1 as [R2 _]. unfold range_limits, rng_from. simpl.
    apply wp_bind. apply wp_usub; [|lia].
    intros _. simpl. replace (Nat.min a n) with a by lia. replace (Nat.min n n) with n by lia. apply H; auto.
  Qed.

  Lemma wp_as_slice {Q : cslice -> _ -> _ -> _ -> Prop} {QP : panic -> _ -> _ -> _ -> Prop} L tr s0 :
    good s0 ->
    (forall n tr1 s, le s0 s -> good s -> eff tr1 = [] -> lenres n tr1 s0 s -> Q (CSlice 0 n) L (tr ++ tr1) s) ->
    wp Q QP (vec_as_slice E) L tr s0.
  Proof.
    intros G H. unfold vec_as_slice. apply wp_bind. apply wp_len; auto.
    intros n tr1 s L1 G1 E1 R1. pose proof R1 as [R2 _]. apply wp_slice_in; auto; [lia|lia|].
    intros tr2 s2 L2 G2 E2. replace (n - 0) with n by lia. rewrite <- app_assoc. apply H; auto.
    - eauto using le_trans.
    - rewrite eff_app, E1, E2. reflexivity.
    - eapply lenres_weak_r; [reflexivity| |exact R1]. apply (le_wrtn _ _ L2).
  Qed.

  (** [slice.slice(a..b)] for a range inside the slice *)
  Lemma wp_slice_slice_in {Q : cslice -> _ -> _ -> _ -> Prop} {QP : panic -> _ -> _ -> _ -> Prop} x a b L tr s0 :
    a <= b -> b <= sl_len x ->
    Q (CSlice (sl_a x + a) (b - a)) L tr s0 ->
    wp Q QP (slice_slice E x (rng a b)) L tr s0.
  Proof.
    intros Hab Hb H. unfold slice_slice. rewrite rng_limits by assumption. simpl.
    apply wp_bind. apply wp_usub; [|lia].
    intros _. simpl. replace (Nat.min a (sl_len x)) with a by lia.
    replace (Nat.min b (sl_len x) - a) with (b - a) by lia. exact H.
  Qed.

  (** chunks *)
  Lemma chunk_ranges_in len k : 0 < k -> forall ab, In ab (chunk_ranges len k) -> fst ab <= snd ab <= len.
  Proof.
    intros Hk ab. unfold chunk_ranges. rewrite in_map_iff. intros (i & <- & Hi). apply in_seq in Hi. simpl in *.
    set (q := len / k) in *.
    assert (D : len = k * q + len mod k) by (apply Nat.div_mod; lia).
    assert (M : len mod k < k) by (apply Nat.mod_upper_bound; lia).
    destruct (Nat.ltb_spec 0 (len - q * k)).
    - replace (q + 1 - 1) with q in * by lia. rewrite andb_true_r. destruct (Nat.eqb_spec i q).
      + subst i. nia.
      + assert (i < q) by lia. split; [lia|]. nia.
    - rewrite andb_false_r. assert (i < q) by lia. split; [lia|]. nia.
  Qed.

  Lemma wp_vec_chunk_slices {Q : list cslice -> _ -> _ -> _ -> Prop} {QP : panic -> _ -> _ -> _ -> Prop} L l : forall tr s0,
    good s0 -> (forall ab, In ab l -> fst ab <= snd ab <= wrtn s0) ->
    (forall tr1 s, le s0 s -> good s -> eff tr1 = [] ->
       Q (map (fun ab => CSlice (0 + fst ab) (snd ab - fst ab)) l) L (tr ++ tr1) s) ->
    wp Q QP (mapP (fun ab => vec_slice E (rng (fst ab) (snd ab))) l) L tr s0.
  Proof.
    revert Q. induction l as [|ab l IH]; intros Q tr s0 G Hl H; cbn [seq mapP foldP filter_elems position eq_elems_list refs_of fill_elems_with fmt_elems count_pushed].
    - rewrite <- (app_nil_r tr). apply H; auto using le_refl.
    - pose proof (Hl ab (or_introl eq_refl)). apply wp_bind. apply wp_slice_in; auto; try lia.
      intros tr1 s1 L1 G1 E1. apply wp_bind. apply IH; auto.
      { intros ab' Hin. pose proof (Hl ab' (or_intror Hin)). pose proof (le_wrtn _ _ L1). lia. }
      intros tr2 s2 L2 G2 E2. simpl in *. rewrite <- app_assoc. apply H; eauto using le_trans.
      rewrite eff_app, E1, E2. reflexivity.
  Qed.

  Lemma wp_slice_chunk_slices {Q : list cslice -> _ -> _ -> _ -> Prop} {QP : panic -> _ -> _ -> _ -> Prop} x L tr s0 l :
    (forall ab, In ab l -> fst ab <= snd ab <= sl_len x) ->
    Q (map (fun ab => CSlice (sl_a x + fst ab) (snd ab - fst ab)) l) L tr s0 ->
    wp Q QP (mapP (fun ab => slice_slice E x (rng (fst ab) (snd ab))) l) L tr s0.
  Proof.
    revert Q. induction l as [|ab l IH]; intros Q Hl H; simpl; [exact H|].
    pose proof (Hl ab (or_introl eq_refl)). apply wp_bind. apply wp_slice_slice_in; try lia.
    apply wp_bind. apply IH; auto. intros ab' Hin. apply Hl. now right.
  Qed.

  (** *** swap *)
  Lemma wp_mut_handle {Q : option nat -> _ -> _ -> _ -> Prop} {QP : panic -> _ -> _ -> _ -> Prop} i L tr s0 :
    good s0 -> (nl = true -> hspin E = false) ->
    (forall tr1 s, le s0 s -> good s -> eff tr1 = [] -> i < wrtn s -> Q (Some i) (TLock i LHeld :: L) (tr ++ tr1) s) ->
    (forall tr1 s, le s0 s -> good s -> eff tr1 = [] ->
        (exists n, lenres n tr1 s0 s /\ n <= i) \/ (hspin E = false /\ In (AcSt i RESERVED) tr1) -> Q None L (tr ++ tr1) s) ->
    wp Q QP (vec_mut_handle E i SOME) L tr s0.
  Proof.
    intros G Hnl HS HN. unfold vec_mut_handle. apply wp_bind. apply wp_len; auto.
    intros n tr1 s1 L1 G1 E1 R1. destruct (Nat.ltb_spec i n) as [Hi|Hi].
    - pose proof R1 as [R2 _]. pose proof (good_wrtn_cap _ _ _ G1).
      apply wp_bind. apply wp_core_get_in; [lia|]. intros s2 c L2 G2 Hc.
      assert (Fi : filledp s2 i).
      { eapply filled_le; [eassumption|]. eapply good_filled_wrtn; eauto. lia. }
      apply wp_bind. unfold option_mut_handle. destruct (hspin E) eqn:Hs.
      + apply sp_Cas.
        * apply Fi.
        * reflexivity.
        * intros X. specialize (Hnl X). discriminate.
        * intros s3 L3 G3 F3. simpl. rewrite app_nil_r, <- app_assoc. apply HS; [eauto 10 using le_trans|assumption| |].
          -- rewrite eff_app, E1. reflexivity.
          -- pose proof (le_wrtn _ _ L2). pose proof (le_wrtn _ _ L3). lia.
        * intros. tauto.
      + apply wp_do. apply st_Cas.
        * apply Fi.
        * intros s3 L3 G3 F3. simpl. rewrite app_nil_r, <- app_assoc. apply HS; [eauto 10 using le_trans|assumption| |].
          -- rewrite eff_app, E1. reflexivity.
          -- pose proof (le_wrtn _ _ L2). pose proof (le_wrtn _ _ L3). lia.
        * intros s3 L3 G3 F3. simpl. rewrite <- !app_assoc. apply HN; [eauto 10 using le_trans|assumption| |].
          -- rewrite eff_app, E1. reflexivity.
          -- right. split; [reflexivity|]. rewrite !in_app_iff. simpl. auto.
        * intros. tauto.
    - simpl. apply HN; auto. left. exists n. auto.
  Qed.

  Lemma wp_swap {Q : bool -> _ -> _ -> _ -> Prop} {QP : panic -> _ -> _ -> _ -> Prop} i j L tr s0 :
    good s0 -> ro = false -> (nl = true -> hspin E = false) ->
    (forall b tr1 s, le s0 s -> good s -> post_swap E i j (RBool b) tr1 s0 s -> Q b L (tr ++ tr1) s) ->
    wp Q QP (vec_swap E i j) L tr s0.
  Proof.
    intros G Hro Hnl H. unfold vec_swap.
    apply wp_bind. apply wp_mut_handle; auto.
    - intros tr1 s1 L1 G1 E1 W1. apply wp_bind. apply wp_mut_handle; auto.
      + intros tr2 s2 L2 G2 E2 W2.
        apply wp_do. apply step_ok_perm with (L' := TLock i LHeld :: TLock j LHeld :: L); [constructor|].
        apply st_WrBeg; [assumption|]. intros s3 L3 G3.
        apply wp_do. apply step_ok_perm with (L' := TLock j LHeld :: TLock i LWr :: L); [constructor|].
        apply st_WrBeg; [assumption|]. intros s4 L4 G4.
        apply wp_do. apply st_SwapEnd; [assumption|]. intros v w s5 L5 G5 Hij.
        apply wp_do. apply st_Unlock. intros s6 L6 G6 _.
        apply wp_do. apply st_Unlock. intros s7 L7 G7 _.
        simpl. rewrite !app_nil_r, <- !app_assoc. apply H; eauto 20 using le_trans.
        left. exists v, w. split; [reflexivity|]. split; [assumption|]. split.
        * rewrite !eff_app, E1, E2. reflexivity.
        * pose proof (le_wrtn _ _ L2). pose proof (le_wrtn _ _ L3). pose proof (le_wrtn _ _ L4).
          pose proof (le_wrtn _ _ L5). pose proof (le_wrtn _ _ L6). pose proof (le_wrtn _ _ L7). lia.
      + intros tr2 s2 L2 G2 E2 Hr. simpl.
        apply wp_do. apply st_Unlock. intros s3 L3 G3 _. simpl. rewrite app_nil_r, <- app_assoc.
        apply H; eauto using le_trans. right. split; [reflexivity|]. split; [rewrite eff_app, E1, E2; reflexivity|].
        destruct Hr as [(n & R1 & R2)|[R1 R2]].
        * left. exists n. split; [|now right]. eapply lenres_weak_l; [| |exact R1].
          -- apply (le_wrtn _ _ L1).
          -- apply (le_wrtn _ _ L3).
        * right. split; [assumption|]. right. apply in_or_app. now right.
    - intros tr1 s1 L1 G1 E1 Hr. apply wp_bind. apply wp_mut_handle; auto.
      + intros tr2 s2 L2 G2 E2 W2. simpl.
        apply wp_do. apply st_Unlock. intros s3 L3 G3 _. simpl. rewrite app_nil_r, <- app_assoc.
        apply H; eauto using le_trans. right. split; [reflexivity|]. split; [rewrite eff_app, E1, E2; reflexivity|].
        destruct Hr as [(n & R1 & R2)|[R1 R2]].
        * left. exists n. split; [|now left]. eapply lenres_weak_r; [reflexivity| |exact R1].
          pose proof (le_wrtn _ _ L3). pose proof (le_wrtn _ _ L2). lia.
        * right. split; [assumption|]. left. apply in_or_app. now left.
      + intros tr2 s2 L2 G2 E2 _. simpl. rewrite <- app_assoc.
        apply H; eauto using le_trans. right. split; [reflexivity|]. split; [rewrite eff_app, E1, E2; reflexivity|].
        destruct Hr as [(n & R1 & R2)|[R1 R2]].
        * left. exists n. split; [|now left]. eapply lenres_weak_r; [reflexivity| |exact R1].
          apply (le_wrtn _ _ L2).
        * right. split; [assumption|]. left. apply in_or_app. now left.
  Qed.

  (** *** growth *)
  Lemma wp_grow {Q : unit -> _ -> _ -> _ -> Prop} {QP : panic -> _ -> _ -> _ -> Prop} b n c L tr s0 :
    b + n <= maxc s0 ->
    (forall s, le s0 s -> good s -> b + n <= cap s -> Q tt (TPend b n KNo :: L) tr s) ->
    wp Q QP (grow_to (b + n)) (TPend b n (KCap c) :: L) tr s0.
  Proof.
    intros Hm H. unfold grow_to. apply wp_do. apply st_GrowBeg; [assumption|assumption|]. intros s1 L1 G1 C1.
    apply wp_doo. apply st_GrowEnd; [assumption| |reflexivity|].
    - rewrite (le_max _ _ L1). assumption.
    - intros s2 L2 G2 C2. rewrite !app_nil_r. apply H; eauto using le_trans.
  Qed.

  Lemma wp_single {Q : unit -> _ -> _ -> _ -> Prop} {QP : panic -> _ -> _ -> _ -> Prop} b L tr s0 :
    (nl = true -> L = []) ->
    (forall tr1 s, le s0 s -> good s -> eff tr1 = [] -> b < cap s -> Q tt (TPend b 1 KNo :: L) (tr ++ tr1) s) ->
    (forall s, le s0 s -> good s -> maxc s0 <= b -> QP PMaxCap (TPend b 1 KNo :: L) tr s) ->
    wp Q QP (single_item_as_ref b) (TPend b 1 KNo :: L) tr s0.
  Proof.
    intros Hnl H HP. unfold single_item_as_ref. apply wp_do. apply st_LoadMax. intros s1 L1 G1.
    pose proof (le_max _ _ L1) as M1. destruct (Nat.ltb_spec b (maxc s1)) as [Hb|Hb].
    - apply sp_LoadCap; auto.
      + intros c. unfold write_permit. destruct (Nat.compare_spec b c); simpl; symmetry;
          [apply Nat.ltb_ge|apply Nat.ltb_ge|apply Nat.ltb_lt]; lia.
      + intros s2 L2 G2 C2. unfold write_permit. destruct (Nat.compare_spec b (cap s2)); try lia.
        simpl. rewrite app_nil_r. apply H; eauto using le_trans.
      + intros s2 L2 G2 C2. assert (b = cap s2) by lia. unfold write_permit.
        destruct (Nat.compare_spec b (cap s2)); try lia.
        apply wp_grow; [rewrite (le_max _ _ L2); lia|]. intros s3 L3 G3 C3. rewrite app_nil_r.
        apply H; eauto using le_trans. lia.
    - simpl. rewrite app_nil_r. apply HP; auto. lia.
  Qed.

  Lemma wp_buffer {Q : unit -> _ -> _ -> _ -> Prop} {QP : panic -> _ -> _ -> _ -> Prop} b n L tr s0 :
    good s0 -> (nl = true -> L = []) -> b + n < wmod E ->
    (forall tr1 s, le s0 s -> good s -> eff tr1 = [] -> (0 < n -> b + n <= cap s) -> Q tt (TPend b n KNo :: L) (tr ++ tr1) s) ->
    (forall s, le s0 s -> good s -> 0 < n -> maxc s0 < b + n -> QP PMaxCap (TPend b n KNo :: L) tr s) ->
    wp Q QP (n_items_buffer E b n) (TPend b n KNo :: L) tr s0.
  Proof.
    intros G Hnl Hw H HP. unfold n_items_buffer. destruct (Nat.eqb_spec n 0) as [->|Hn].
    - rewrite <- (app_nil_r tr). apply H; auto using le_refl. lia.
    - unfold uadd. apply Nat.ltb_lt in Hw. rewrite Hw. simpl. unfold usub.
      destruct (Nat.leb_spec 1 (b + n)); [|lia]. simpl.
      apply wp_do. apply st_LoadMax. intros s1 L1 G1.
      pose proof (le_max _ _ L1) as M1. destruct (Nat.ltb_spec (b + n - 1) (maxc s1)) as [Hb|Hb].
      + apply sp_LoadCap; auto.
        * lia.
        * intros c. unfold write_permit_n_items.
          destruct (Nat.compare_spec b c), (Nat.compare_spec (b + n - 1) c); simpl; symmetry;
            try (apply Nat.ltb_ge; lia); try (apply Nat.ltb_lt; lia).
        * intros s2 L2 G2 C2. unfold write_permit_n_items.
          destruct (Nat.compare_spec (b + n - 1) (cap s2)); try lia.
          destruct (Nat.compare b (cap s2));
          simpl; rewrite app_nil_r; (apply H; eauto using le_trans).
        * intros s2 L2 G2 C2. unfold write_permit_n_items.
          destruct (Nat.compare_spec (b + n - 1) (cap s2)); try lia;
          destruct (Nat.compare_spec b (cap s2)); try lia;
          (apply wp_grow; [rewrite (le_max _ _ L2); lia|]; intros s3 L3 G3 C3; rewrite app_nil_r;
           apply H; eauto using le_trans).
      + simpl. rewrite app_nil_r. apply HP; auto; lia.
  Qed.

  Lemma wp_init {Q : unit -> _ -> _ -> _ -> Prop} {QP : panic -> _ -> _ -> _ -> Prop} i n v L tr s0 :
    i < cap s0 ->
    (forall s, le s0 s -> good s -> Q tt (TPend (S i) n KNo :: L) (tr ++ [AcInit i v]) s) ->
    wp Q QP (initialize_unchecked i v) (TPend i (S n) KNo :: L) tr s0.
  Proof.
    intros Hi H. unfold initialize_unchecked.
    apply wp_do. apply st_InitBeg; [assumption|]. intros s1 L1 G1.
    apply wp_do. apply (st_InitEnd E ro t i v); [pose proof (le_cap _ _ L1); lia|]. intros s2 L2 G2.
    apply wp_doo. apply st_Publish; [pose proof (le_cap _ _ L1); pose proof (le_cap _ _ L2); lia|].
    intros s3 L3 G3 _. rewrite !app_nil_r. apply H; eauto using le_trans.
  Qed.

  Lemma wp_write_items {Q : unit -> _ -> _ -> _ -> Prop} {QP : panic -> _ -> _ -> _ -> Prop} L n : forall i it tr s0,
    good s0 -> (0 < n -> i + n <= cap s0) ->
    (forall vs s, le s0 s -> good s -> length vs = n -> firstn n it = map Some vs ->
        Q tt (TPend (i + n) 0 KNo :: L) (tr ++ inits i vs) s) ->
    (forall vs m s, le s0 s -> good s -> length vs < n ->
        ((m = PShortIter /\ it = map Some vs) \/ (m = PClosure /\ exists it', it = map Some vs ++ None :: it')) ->
        QP m (TPend (i + length vs) (n - length vs) KNo :: L) (tr ++ inits i vs) s) ->
    wp Q QP (write_items i n it) (TPend i n KNo :: L) tr s0.
  Proof.
    induction n as [|n IH]; intros i it tr s0 G Hc H HP; cbn [write_items].
    - specialize (H [] s0 (le_refl _) G eq_refl eq_refl). simpl in H.
      rewrite app_nil_r in H. now replace (i + 0) with i in H by lia.
    - destruct it as [|[v|] it].
      + simpl. specialize (HP [] PShortIter s0 (le_refl _) G ltac:(simpl; lia) (or_introl (conj eq_refl eq_refl))).
        simpl in HP. rewrite app_nil_r in HP. replace (i + 0) with i in HP by lia. now replace (S n - 0) with (S n) in HP by lia.
      + apply wp_bind. apply wp_init; [lia|]. intros s1 L1 G1. apply IH; auto.
        * pose proof (le_cap _ _ L1). lia.
        * intros vs s2 L2 G2 Hl Hf. rewrite <- app_assoc. replace (S i + n) with (i + S n) by lia.
          apply (H (v :: vs)); simpl; try congruence. eauto using le_trans.
        * intros vs m s2 L2 G2 Hl Hm. rewrite <- app_assoc.
          specialize (HP (v :: vs) m s2 ltac:(eauto using le_trans) G2 ltac:(simpl; lia)). simpl in HP.
          replace (S i + length vs) with (i + S (length vs)) by lia. replace (n - length vs) with (S n - S (length vs)) by lia.
          apply HP. destruct Hm as [[-> ->]|[-> (it' & ->)]]; [left; auto|right]. split; [reflexivity|]. now exists it'.
      + simpl. specialize (HP [] PClosure s0 (le_refl _) G ltac:(simpl; lia) (or_intror (conj eq_refl (ex_intro _ it eq_refl)))).
        simpl in HP. rewrite app_nil_r in HP. replace (i + 0) with i in HP by lia. now replace (S n - 0) with (S n) in HP by lia.
  Qed.

  (** *** what is owned at the end of a call *)
  (** nothing *)
  Definition fin (L : list (tok V)) : Prop :=
    Forall (fun k => match k with TPend _ 0 KNo => True | _ => False end) L.
  (** reserved positions that will never be written *)
  Definition dead (L : list (tok V)) : Prop :=
    Forall (fun k => match k with TPend _ _ KNo => True | _ => False end) L.

  Definition wpost (o : op V) sI : ret V -> list (tok V) -> list acc -> shared -> Prop :=
    fun r L tr s => fin L /\ post E o r tr sI s /\ Forall (grant_ok s) (grants r).
  Definition wpan (o : op V) sI : panic -> list (tok V) -> list acc -> shared -> Prop :=
    fun m L tr s => dead L /\ pan E o m tr sI s.

  Lemma fin_nil : fin [].
  Proof. constructor. Qed.
  Lemma dead_nil : dead [].
  Proof. constructor. Qed.
  Lemma fin_zero b : fin [TPend b 0 KNo].
  Proof. repeat constructor. Qed.
  Lemma dead_one b n : dead [TPend b n KNo].
  Proof. repeat constructor. Qed.
End Specs.
