(** * How knowledge spreads from one vector to another. *)

From Coq Require Import List Arith Bool Lia.
From Verif.Model Require Import Prog Mem Deps State Elem Vec Excl Machine Reentrant Network.
From Verif Require Import Client Nested.
From Verif.RA Require Import Weak WTrace WReentrant WNetwork WInv WStep WSound WNested WLent WProject.
From Verif.Logic Require Import Reentry.
Import ListNotations.

Section Flow.
  Context {V : Type} (E : env V) (ro : bool).
  Implicit Types (q : qcfg V) (M : wmem V).

  (** what store [p] releases *)
  Definition told {A} (m : option (msg A)) : view := match m with Some m => mview m | None => vbot end.
  Definition mmsg M (p : place) : view :=
    match fst p with
    | LResv => told (nth_error (m_resv M) (snd p))
    | LWrtn => told (nth_error (m_wrtn M) (snd p))
    | LCap => told (nth_error (m_cap M) (snd p))
    | LSt i => told (nth_error (ws (m_slots M i)) (snd p))
    | LRes => vbot
    end.
  Definition qmsg q (p : place) : view :=
    match fst p with
    | LRes => match nth_error (q_res q) (snd p) with Some x => p_to x | None => vbot end
    | _ => mmsg (q_mem q) p
    end.

  Definition spreads (e : effect) (msg msg' : place -> view) (tv tv' : view) (ww : nat -> nat) : Prop :=
    (forall p, e_acq e = Some p -> vle (msg p) tv') /\
    (forall i n, n <= v_w tv' i -> n <= v_w tv i \/ (exists p, e_acq e = Some p /\ n <= v_w (msg p) i) \/ v_w tv i = ww i) /\
    (forall p, (msg' p = msg p /\ e_new e <> Some p) \/ e_new e = Some p /\ msg p = vbot /\
       (forall p', e_prev e = Some p' -> vle (msg p') (msg' p)) /\ (e_rel e = true -> vle tv' (msg' p)) /\
       (forall i n, n <= v_w (msg' p) i -> (exists p', e_prev e = Some p' /\ n <= v_w (msg p') i) \/ e_rel e = true /\ n <= v_w tv' i)).

  Lemma told_app {A} (l : list (msg A)) m j : (told (nth_error (l ++ [m]) j) = told (nth_error l j) /\ j <> length l) \/ j = length l /\ told (nth_error l j) = vbot /\ told (nth_error (l ++ [m]) j) = mview m.
  Proof.
    destruct (Nat.lt_trichotomy j (length l)) as [L|[->|L]].
    - left. split; [now rewrite nth_error_app1|lia].
    - right. rewrite nth_error_app2, Nat.sub_diag by lia. rewrite (proj2 (nth_error_None l (length l))) by lia. auto.
    - left. split; [|lia]. rewrite (proj2 (nth_error_None _ _)) by (rewrite app_length; simpl; lia). now rewrite (proj2 (nth_error_None l j)) by lia.
  Qed.
  Lemma told_st M i x j k : told (nth_error (ws (m_slots (put_slot M i x) j)) k) = if j =? i then told (nth_error (ws x) k) else told (nth_error (ws (m_slots M j)) k).
  Proof. unfold put_slot. cbn [m_slots]. unfold upd. now destruct (j =? i). Qed.
  Lemma mmsg_slots M M' : m_resv M' = m_resv M -> m_wrtn M' = m_wrtn M -> m_cap M' = m_cap M -> (forall i, ws (m_slots M' i) = ws (m_slots M i)) -> forall p, mmsg M' p = mmsg M p.
  Proof. intros A B C D [[| | |i|] k]; unfold mmsg; cbn [fst snd]; now rewrite ?A, ?B, ?C, ?D. Qed.

  Lemma acq_w o {A} (m : msg A) tv i n : n <= v_w (acq o m tv) i -> n <= v_w tv i \/ acquires o = true /\ n <= v_w (mview m) i.
  Proof. unfold acq. destruct (acquires o); [|auto]. cbn [vjoin v_w]. lia. Qed.
  Lemma acq_le o {A} (m : msg A) tv : acquires o = true -> vle (mview m) (acq o m tv).
  Proof. unfold acq. intros ->. apply vle_join_r. Qed.
  Lemma spreads_load o {A} (m : msg A) tv tv1 p msg ww : msg p = mview m -> v_w tv1 = v_w tv ->
    spreads (Eff (if acquires o then Some p else None) None None false) msg msg tv (acq o m tv1) ww.
  Proof.
    intros Hm Hw. split; [|split; [|left; split; [reflexivity|discriminate]]]; cbn [e_acq].
    - intros x H. destruct (acquires o) eqn:Q; [|discriminate]. injection H as <-. rewrite Hm. now apply acq_le.
    - intros i n H. apply acq_w in H as [H|[Q H]]; [left; now rewrite <- Hw|]. right. left. exists p. rewrite Q, Hm. auto.
  Qed.
  Lemma spreads_rmw o {A} (m : msg A) tv tv1 p p' msg msg' ww : msg p = mview m -> v_w tv1 = v_w tv ->
    (forall x, (msg' x = msg x /\ x <> p') \/ x = p' /\ msg x = vbot /\ msg' x = rel o m (acq o m tv1)) ->
    spreads (Eff (if acquires o then Some p else None) (Some p') (Some p) (releases o)) msg msg' tv (acq o m tv1) ww.
  Proof.
    intros Hm Hw Hn. destruct (spreads_load o m tv tv1 p msg ww Hm Hw) as (A1 & B1 & _). split; [exact A1|]. split; [exact B1|]. cbn [e_new e_prev e_rel].
    intros x. destruct (Hn x) as [[H Hx]|(-> & H0 & H)]; [left; split; congruence|right]. split; [reflexivity|]. split; [assumption|]. rewrite H. unfold rel. split; [|split].
    - intros ? [= <-]. rewrite Hm. destruct (releases o); [apply vle_join_l|apply vle_refl].
    - intros ->. apply vle_join_r.
    - intros i n. destruct (releases o); cbn [vjoin v_w]; intros K; [|left; exists p; rewrite Hm; auto].
      destruct (Nat.max_spec (v_w (mview m) i) (v_w (acq o m tv1) i)) as [[_ Q]|[_ Q]]; rewrite Q in K; [right; auto|left; exists p; rewrite Hm; auto].
  Qed.
  Lemma spreads_store tv tv1 p' msg msg' ww : v_w tv1 = v_w tv -> (forall x, (msg' x = msg x /\ x <> p') \/ x = p' /\ msg x = vbot /\ msg' x = tv1) ->
    spreads (Eff None (Some p') None true) msg msg' tv tv1 ww.
  Proof.
    intros Hw Hn. split; [discriminate|]. split; [intros i n; rewrite Hw; auto|]. cbn [e_new e_prev e_rel]. intros x. destruct (Hn x) as [[H Hx]|(-> & H0 & H)]; [left; split; congruence|]. right. split; [reflexivity|]. split; [assumption|].
    rewrite H. split; [discriminate|]. split; [intros; apply vle_refl|auto].
  Qed.
  Lemma spreads_none tv tv' msg msg' ww : (forall x, msg' x = msg x) -> (forall i, v_w tv' i = v_w tv i \/ v_w tv i = ww i) -> spreads no_effect msg msg' tv tv' ww.
  Proof. intros Hm Hw. split; [discriminate|]. split; [|left; split; [auto|discriminate]]. intros i n H. destruct (Hw i) as [<-|]; auto. Qed.

  Lemma nset_w i k tv j : v_w (set_w i k tv) j = v_w tv j \/ j = i.
  Proof. cbn [set_w v_w]. unfold upd. destruct (Nat.eqb_spec j i); auto. Qed.
  Lemma may_w tv i (x : wslot V) : may_write tv i x = true -> v_w tv i = ww x.
  Proof. unfold may_write. rewrite andb_true_iff, Nat.eqb_eq. tauto. Qed.
  Lemma new_resv M c x p : (mmsg (WMem (m_resv M ++ [x]) (m_wrtn M) (m_cap M) c (m_grow M) (m_slots M)) p = mmsg M p /\ p <> (LResv, length (m_resv M))) \/
    p = (LResv, length (m_resv M)) /\ mmsg M p = vbot /\ mmsg (WMem (m_resv M ++ [x]) (m_wrtn M) (m_cap M) c (m_grow M) (m_slots M)) p = mview x.
  Proof. destruct p as [[| | |i|] k]; try (left; split; [reflexivity|discriminate]). unfold mmsg. cbn [fst snd m_resv]. destruct (told_app (m_resv M) x k) as [[H N]|(-> & H)]; [left; split; [exact H|congruence]|auto]. Qed.
  Lemma new_wrtn M c x p : (mmsg (WMem (m_resv M) (m_wrtn M ++ [x]) (m_cap M) c (m_grow M) (m_slots M)) p = mmsg M p /\ p <> (LWrtn, length (m_wrtn M))) \/
    p = (LWrtn, length (m_wrtn M)) /\ mmsg M p = vbot /\ mmsg (WMem (m_resv M) (m_wrtn M ++ [x]) (m_cap M) c (m_grow M) (m_slots M)) p = mview x.
  Proof. destruct p as [[| | |i|] k]; try (left; split; [reflexivity|discriminate]). unfold mmsg. cbn [fst snd m_wrtn]. destruct (told_app (m_wrtn M) x k) as [[H N]|(-> & H)]; [left; split; [exact H|congruence]|auto]. Qed.
  Lemma new_st M i x b r v p : (mmsg (put_slot M i (WSlot (ws (m_slots M i) ++ [x]) b r v)) p = mmsg M p /\ p <> (LSt i, length (ws (m_slots M i)))) \/
    p = (LSt i, length (ws (m_slots M i))) /\ mmsg M p = vbot /\ mmsg (put_slot M i (WSlot (ws (m_slots M i) ++ [x]) b r v)) p = mview x.
  Proof.
    destruct p as [[| | |j|] k]; try (left; split; [reflexivity|discriminate]). unfold mmsg. cbn [fst snd]. rewrite told_st. destruct (Nat.eqb_spec j i) as [->|]; [|left; split; [reflexivity|congruence]]. cbn [ws].
    destruct (told_app (ws (m_slots M i)) x k) as [[H N]|(-> & H)]; [left; split; [exact H|congruence]|auto].
  Qed.
  Lemma same_st M i b r v x : mmsg (put_slot M i (WSlot (ws (m_slots M i)) b r v)) x = mmsg M x.
  Proof. apply mmsg_slots; try reflexivity. intros j. unfold put_slot. cbn [m_slots]. unfold upd. now destruct (Nat.eqb_spec j i) as [->|]. Qed.
  Lemma at_end {A} (l : list (msg A)) k m : nth_error l k = Some m -> nth_error l (S k) = None -> S k = length l.
  Proof. intros H K. apply nth_error_None in K. assert (k < length l) by (apply nth_error_Some; congruence). lia. Qed.

  Lemma wexec_flow id (a : act V) k M tv y M' tv' : wexec E id a k M tv = WDone y M' tv' -> mle ro M M' -> (forall i, ws (m_slots M i) <> []) ->
    spreads (weffect a k M y) (mmsg M) (mmsg M') tv tv' (fun i => ww (m_slots M i)).
  Proof.
    intros X Le Ne. destruct a; cbn [wexec weffect] in *; unfold with_wslot in X;
      repeat (match type of X with
              | context [if ?e then _ else _] => destruct e eqn:?
              | context [match ?e with _ => _ end] => destruct e eqn:? end; try discriminate);
      try (injection X as <- <- <-).
    all: try solve [apply spreads_none; [reflexivity|auto]].
    - apply spreads_load; [|reflexivity]. unfold mmsg; cbn [fst snd]. match goal with H : nth_error _ _ = _ |- _ => now rewrite H end.
    - apply spreads_rmw; [|reflexivity|intros x; apply new_resv]. unfold mmsg; cbn [fst snd]. match goal with H : nth_error _ _ = _ |- _ => now rewrite H end.
    - apply spreads_load; [|reflexivity]. unfold mmsg; cbn [fst snd]. match goal with H : nth_error _ _ = _ |- _ => now rewrite H end.
    - apply spreads_rmw; [|reflexivity|intros x; apply new_wrtn]. unfold mmsg; cbn [fst snd]. match goal with H : nth_error _ _ = _ |- _ => now rewrite H end.
    - apply (spreads_load Acquire); [|reflexivity]. unfold mmsg; cbn [fst snd]. match goal with H : nth_error _ _ = _ |- _ => now rewrite H end.
    - apply spreads_load; [|reflexivity]. unfold mmsg; cbn [fst snd]. match goal with H : nth_error _ _ = _ |- _ => now rewrite H end.
    - cbn [fst]. match goal with H : nth_error _ k = _, K : nth_error _ (S k) = _ |- _ => pose proof (at_end _ _ _ H K) as L; assert (Hm : mmsg M (LSt i, k) = mview m) by (unfold mmsg; cbn [fst snd]; now rewrite H) end.
      apply (spreads_rmw Acquire m tv (set_st i (S k) tv) (LSt i, k) (LSt i, S k)); [assumption|reflexivity|]. rewrite L. intros x. apply new_st.
    - apply spreads_store; [reflexivity|intros x; apply new_st].
    - apply spreads_store; [reflexivity|intros x; apply new_st].
    - apply spreads_none; [intros x; apply same_st|auto].
    - apply spreads_none; [intros x; apply same_st|]. intros j. destruct (nset_w i (S (ww (m_slots M i))) tv j) as [H| ->]; [auto|]. right. now apply may_w.
    - repeat match goal with H : _ && _ = true |- _ => apply andb_true_iff in H as [? ?] end. match goal with H : negb _ = true |- _ => apply negb_true_iff, Nat.eqb_neq in H end.
      apply spreads_none.
      + intros x. apply mmsg_slots; try reflexivity. intros j'. unfold put_slot. cbn [m_slots]. unfold upd. destruct (Nat.eqb_spec j' j) as [->|]; [reflexivity|].
        destruct (Nat.eqb_spec j' i) as [->|]; reflexivity.
      + intros j'. destruct (nset_w j (S (ww (m_slots M j))) (set_w i (S (ww (m_slots M i))) tv) j') as [H'| ->]; [|right; now apply may_w]. rewrite H'.
        destruct (nset_w i (S (ww (m_slots M i))) tv j') as [H''| ->]; [auto|right; now apply may_w].
    - apply spreads_none; [intros x; apply same_st|]. intros j. destruct (nset_w i (S (ww (m_slots M i))) tv j) as [H| ->]; [auto|]. right. now apply may_w.
    - apply spreads_store; [reflexivity|]. intros [[| | |j|] p]; try (left; split; [reflexivity|discriminate]); unfold mmsg; cbn [fst snd m_cap m_slots].
      + match goal with |- context [m_cap M ++ [?x]] => destruct (told_app (m_cap M) x p) as [[H N]|(-> & H)]; [left; split; [exact H|congruence]|auto] end.
      + left. split; [|discriminate]. pose proof (le_st _ _ _ Le j) as Pr. unfold sl in Pr. cbn [m_slots] in Pr. destruct ((capv M tv <=? j) && (j <? n0)) in Pr |- *; [|reflexivity]. specialize (Ne j).
        destruct Pr as [r Pr]. cbn [wfresh ws] in *. destruct (ws (m_slots M j)) as [|m0 [|m1 l]]; cbn [app] in Pr; [congruence|injection Pr as <- _; reflexivity|discriminate].
  Qed.

  (** ** Steps of one vector *)
  Definition sound q (t : nat) : Prop :=
    (forall i, ws (m_slots (q_mem q) i) <> []) /\
    forall fr rest a kk k y M tv, (k_prog fr = RAct a kk \/ exists again, k_prog fr = RSpin a again kk /\ again y = false) -> stack t (q_run q) = fr :: rest ->
      wexec E (k_num fr) a k (q_mem q) (q_view q (agent t (length rest))) = WDone y M tv -> vle (q_view q (agent t (length rest))) tv /\ mle ro (q_mem q) M.
  (** the innermost call of a thread knows most *)
  Definition deep q (t : nat) : Prop := forall d, vle (q_view q (agent t d)) (q_view q (holder t q)).
  Lemma vle_lub x y z : vle x z -> vle y z -> vle (vjoin x y) z.
  Proof.
    intros (A1 & A2 & A3 & A4 & A5 & A6) (B1 & B2 & B3 & B4 & B5 & B6). unfold vjoin. repeat split; cbn; try lia; intros i.
    - specialize (A4 i). specialize (B4 i). lia.
    - specialize (A5 i). specialize (B5 i). lia.
    - intros r H. apply orb_true_iff in H as [H|H]; auto.
  Qed.
  Lemma vle_w x y i n : vle x y -> n <= v_w x i -> n <= v_w y i.
  Proof. intros (_ & _ & _ & _ & A & _) H. specialize (A i). lia. Qed.
  Lemma join_w x y i n : n <= v_w (vjoin x y) i -> n <= v_w x i \/ n <= v_w y i.
  Proof. cbn. lia. Qed.
  Lemma spreads_vle e msg msg' tv tv' ww : e_acq e = None -> e_new e = None -> (forall p, msg' p = msg p) -> vle tv' tv -> spreads e msg msg' tv tv' ww.
  Proof. intros A N H L. split; [congruence|]. split; [intros i n K; left; eapply vle_w; eauto|left; split; [auto|congruence]]. Qed.
  Definition flowing q l q' (t : nat) : Prop :=
    vle (q_view q (holder t q)) (q_view q' (holder t q')) /\
    spreads (qeffect E q l) (qmsg q) (qmsg q') (q_view q (holder t q)) (q_view q' (holder t q')) (fun i => ww (m_slots (q_mem q) i)) /\
    (forall i, ww (m_slots (q_mem q) i) <= ww (m_slots (q_mem q') i)) /\ deep q' t /\
    forall u, u <> t -> (forall d, q_view q' (agent u d) = q_view q (agent u d)) /\ holder u q' = holder u q.
  Ltac proj := cbn [q_mem q_view q_run q_next q_res q_panics q_req q_hist q_ans].
  Lemma enter_at (f : nat -> view) t d : enter f t d (agent t d) = match d with 0 => f (agent t 0) | S d' => vjoin (f (agent t d)) (f (agent t d')) end.
  Proof. destruct d; [reflexivity|]. cbn [enter]. rewrite learn_at, Nat.eqb_refl. reflexivity. Qed.
  Lemma agent_depth t d d' : d <> d' -> agent t d <> agent t d'.
  Proof. intros N H. apply agent_inj in H as [_ H]. contradiction. Qed.
  Lemma leave_at (f : nat -> view) t d d' : leave f t d (agent t d') = match d with 0 => f (agent t d') | S e => if d' =? e then vjoin (f (agent t e)) (f (agent t d)) else f (agent t d') end.
  Proof.
    destruct d; [reflexivity|]. cbn [leave]. rewrite learn_at. destruct (Nat.eqb_spec d' d) as [->|N]; [now rewrite Nat.eqb_refl|].
    destruct (Nat.eqb_spec (agent t d') (agent t d)) as [H|]; [|reflexivity]. apply agent_inj in H as [_ H]. contradiction.
  Qed.
  Lemma qmsg_mem q q' p : q_res q' = q_res q -> (forall p, mmsg (q_mem q') p = mmsg (q_mem q) p) -> qmsg q' p = qmsg q p.
  Proof. intros R M. unfold qmsg. rewrite R. destruct (fst p); auto. Qed.

  Lemma leave_flow q t fr rest q' : stack t (q_run q) = fr :: rest -> deep q t -> q_view q' = leave (q_view q) t (length rest) -> q_run q' = put t rest (q_run q) ->
    vle (q_view q (holder t q)) (q_view q' (holder t q')) /\ vle (q_view q' (holder t q')) (q_view q (holder t q)) /\ deep q' t /\
    forall u, u <> t -> (forall d, q_view q' (agent u d) = q_view q (agent u d)) /\ holder u q' = holder u q.
  Proof.
    intros St D Vw Rn. assert (Ho : holder t q = agent t (length rest)) by (unfold holder; now rewrite St).
    assert (Ho' : holder t q' = agent t (pred (length rest))) by (unfold holder; rewrite Rn, stack_put, Nat.eqb_refl; reflexivity).
    unfold deep in *. rewrite Ho in D. rewrite Vw, Ho, Ho', leave_at.
    assert (Up : forall d', vle (leave (q_view q) t (length rest) (agent t d')) (q_view q (agent t (length rest)))).
    { intros d'. rewrite leave_at. destruct (length rest) as [|e]; [apply D|]. destruct (d' =? e); [|apply D]. apply vle_lub; apply D. }
    assert (Dn : vle (q_view q (agent t (length rest))) (leave (q_view q) t (length rest) (agent t (pred (length rest))))).
    { rewrite leave_at. destruct (length rest) as [|e]; [apply vle_refl|]. cbn [pred]. rewrite Nat.eqb_refl. apply vle_join_r. }
    rewrite <- leave_at. split; [exact Dn|]. split; [apply Up|]. split; [intros d; rewrite leave_at; rewrite <- leave_at; eapply vle_trans; [apply Up|exact Dn]|].
    intros u N. split; [intros d; apply leave_other; assumption|]. unfold holder. rewrite Rn, stack_put. now destruct (Nat.eqb_spec u t).
  Qed.

  Lemma qstep_flow q l q' t : qstep E q l = QNext q' -> by_thread l = Some t -> (forall u, l <> QSync t u) -> sound q t -> deep q t -> flowing q l q' t.
  Proof.
    intros S By Ns [Ne Sd] D. destruct l as [t' o from|t' k|t' a|t' u| |n]; cbn [by_thread] in By; try discriminate; injection By as ->;
      [| | |destruct (Ns u eq_refl)]; cbv beta iota zeta delta [qstep] in S.
    - destruct (turn _) eqn:U in S; [|discriminate]. destruct (qfetch _ _ _) as [x|] eqn:Fe; [|discriminate]. apply qnext_inj in S; subst q'. set (d := length (stack t (q_run q))).
      match goal with |- flowing _ _ ?x _ => set (q' := x) end.
      assert (Ho' : holder t q' = agent t d) by (unfold holder, q'; proj; rewrite stack_put, Nat.eqb_refl; reflexivity).
      assert (Vo : q_view q' (holder t q') = vjoin (enter (q_view q) t d (agent t d)) x) by (rewrite Ho'; unfold q'; proj; apply upd_same).
      assert (Ho : holder t q = agent t (pred d)) by reflexivity.
      assert (L1 : vle (q_view q (holder t q)) (q_view q' (holder t q'))).
      { rewrite Vo, Ho, enter_at. destruct d as [|d']; [apply vle_join_l|]. cbn [pred]. eapply vle_trans; [apply vle_join_r|apply vle_join_l]. }
      assert (Up : vle (enter (q_view q) t d (agent t d)) (q_view q (holder t q))).
      { rewrite enter_at. pose proof D as D'. unfold deep in D'. destruct d as [|d']; [apply D'|apply vle_lub; apply D']. }
      split; [exact L1|]. split; [|split; [intros; apply le_n|split]].
      + unfold qfetch in Fe. cbn [qeffect]. destruct (needs _) as [g|].
        * destruct (nth_error (q_res q) from) as [r|] eqn:Hr; [|discriminate]. destruct (existsb _ _); [|discriminate]. injection Fe as <-.
          assert (Hm : qmsg q (LRes, from) = p_to r) by (unfold qmsg; cbn [fst snd]; now rewrite Hr).
          split; [|split; [|left; split; [reflexivity|discriminate]]]; cbn [e_acq].
          -- intros ? [= <-]. rewrite Hm, Vo. apply vle_join_r.
          -- intros i n H. rewrite Vo in H. apply join_w in H as [H|H]; [left; eapply vle_w; eauto|]. right. left. exists (LRes, from). rewrite Hm. auto.
        * injection Fe as <-. apply spreads_vle; try reflexivity. rewrite Vo. apply vle_lub; [exact Up|]. repeat split; cbn; intros; lia || discriminate.
      + intros e. destruct (Nat.eq_dec e d) as [->|Q]; [rewrite <- Ho'; apply vle_refl|]. apply (agent_depth t) in Q.
        eapply vle_trans; [|exact L1]. unfold q'; proj. rewrite upd_diff by assumption. destruct d as [|d']; [apply D|]. cbn [enter]. rewrite learn_at. destruct (Nat.eqb_spec (agent t e) (agent t (S d'))); [contradiction|apply D].
      + intros u N. split.
        * intros e. unfold q'; proj. rewrite upd_diff by now apply agent_other. now apply enter_else.
        * unfold holder, q'; proj. rewrite stack_put. now destruct (Nat.eqb_spec u t).
    - destruct (stack t (q_run q)) as [|fr rest] eqn:St; [discriminate|].
      assert (Ho : holder t q = agent t (length rest)) by (unfold holder; now rewrite St).
      assert (Af : forall a kk y M tv, (k_prog fr = RAct a kk \/ exists again, k_prog fr = RSpin a again kk /\ again y = false) ->
                wexec E (k_num fr) a k (q_mem q) (q_view q (agent t (length rest))) = WDone y M tv -> qeffect E q (QStep t k) = weffect a k (q_mem q) y ->
                flowing q (QStep t k) (qafter t q fr rest (kk y) M tv (wlog (q_mem q) a y)) t).
      { intros a kk y M tv Pr Ex Ef. destruct (Sd fr rest a kk k y M tv Pr eq_refl Ex) as [L1 Le]. match goal with |- flowing _ _ ?x _ => set (qn := x) end.
        assert (Ho' : holder t qn = agent t (length rest)) by (unfold holder, qn, qafter; proj; rewrite stack_put, Nat.eqb_refl; reflexivity).
        assert (Vo : q_view qn (holder t qn) = tv) by (rewrite Ho'; unfold qn, qafter; proj; apply upd_same).
        unfold flowing. rewrite Vo, Ho, Ef. split; [exact L1|]. split; [|split; [apply (le_ww _ _ _ Le)|split]].
        - pose proof (wexec_flow _ _ _ _ _ _ _ _ Ex Le Ne) as (A & B & C). split; [|split].
          + intros p Hp. specialize (A p Hp). unfold qmsg. destruct p as [[| | |i|] j]; try exact A. exfalso. clear -Hp. destruct a; cbn [weffect e_acq] in Hp; try discriminate;
              repeat (match type of Hp with context [if ?e then _ else _] => destruct e end; try discriminate).
          + intros i n H. destruct (B i n H) as [H1|[(p & H1 & H2)|H1]]; auto. right. left. exists p. split; [assumption|]. unfold qmsg. destruct p as [[| | |j|] j']; try exact H2.
            unfold mmsg in H2. cbn [fst vbot v_w] in H2. cbn [fst]. assert (n = 0) by (cbn in H2; lia). lia.
          + intros p. destruct (C p) as [[H H0]|(H1 & H2 & H3 & H4 & H5)].
            * left. split; [|exact H0]. unfold qmsg. unfold qn, qafter; proj. now destruct (fst p).
            * assert (Pl : forall p', e_new (weffect a k (q_mem q) y) = Some p' \/ e_prev (weffect a k (q_mem q) y) = Some p' -> fst p' <> LRes).
              { clear. intros p' [H|H] Q; destruct a; cbn [weffect e_new e_prev] in H; try discriminate; try (match type of H with context [if ?e then _ else _] => destruct e end); try discriminate;
                  injection H as <-; discriminate. }
              assert (Qm : forall q p', fst p' <> LRes -> qmsg q p' = mmsg (q_mem q) p') by (intros q0 p' N; unfold qmsg; destruct (fst p'); congruence).
              right. split; [assumption|]. pose proof (Pl p (or_introl H1)) as N. rewrite !Qm by assumption. split; [assumption|]. split; [|split].
              -- intros p' Hp. rewrite Qm by (apply Pl; auto). now apply H3.
              -- exact H4.
              -- intros i n K. destruct (H5 i n K) as [(p' & K1 & K2)|K1]; [left|auto]. exists p'. rewrite Qm by (apply Pl; auto). auto.
        - intros e. rewrite Vo. unfold qn, qafter; proj. unfold upd. destruct (Nat.eqb_spec (agent t e) (agent t (length rest))); [apply vle_refl|].
          eapply vle_trans; [|exact L1]. rewrite <- Ho. apply D.
        - intros u N. split; [intros e; unfold qn, qafter; proj; apply upd_diff; now apply agent_other|]. unfold holder, qn, qafter; proj. rewrite stack_put. now destruct (Nat.eqb_spec u t). }
      destruct (k_prog fr) as [v|m|a kk|a again kk|kk] eqn:P; [| | | |discriminate].
      + apply qnext_inj in S; subst q'. match goal with |- flowing _ _ ?x _ => set (q' := x) end.
        destruct (leave_flow q t fr rest q' St D eq_refl eq_refl) as (L1 & L2 & D' & O). split; [exact L1|]. split; [|split; [intros; apply le_n|auto]].
        cbn [qeffect]. rewrite St, P. split; [discriminate|]. split; [intros i n H; left; eapply vle_w; eauto|]. cbn [e_new e_prev e_rel]. intros [[| | |i|] j]; try (left; split; [reflexivity|discriminate]).
        unfold qmsg. cbn [fst snd]. unfold q'; proj. destruct (Nat.lt_trichotomy j (length (q_res q))) as [L|[->|L]].
        * left. split; [now rewrite nth_error_app1|]. intros Q; injection Q as Q; lia.
        * right. split; [reflexivity|]. rewrite nth_error_app2, Nat.sub_diag by lia. rewrite (proj2 (nth_error_None (q_res q) _)) by lia. cbn [nth_error p_to]. rewrite <- Ho.
          split; [reflexivity|]. split; [discriminate|]. split; [intros _; exact L2|]. intros i n H. right. split; [reflexivity|]. exact (vle_w _ _ _ _ L1 H).
        * left. split; [|intros Q; injection Q as Q; lia]. rewrite (proj2 (nth_error_None _ _)) by (rewrite app_length; simpl; lia). now rewrite (proj2 (nth_error_None (q_res q) j)) by lia.
      + apply qnext_inj in S; subst q'. match goal with |- flowing _ _ ?x _ => set (q' := x) end.
        destruct (leave_flow q t fr rest q' St D eq_refl eq_refl) as (L1 & L2 & D' & O). split; [exact L1|]. split; [|split; [intros; apply le_n|auto]].
        cbn [qeffect]. rewrite St, P. apply spreads_vle; auto.
      + destruct (wexec _ _ _ _ _ _) as [y M tv|f|] eqn:Ex; [|discriminate ..]. apply qnext_inj in S; subst q'. eapply Af; eauto. cbn [qeffect]. rewrite St, P, Ex. reflexivity.
      + destruct (wexec _ _ _ _ _ _) as [y M tv|f|] eqn:Ex; [|discriminate ..]. destruct (again y) eqn:Ag; apply qnext_inj in S; subst q'.
        * split; [apply vle_refl|]. split; [|split; [intros; apply le_n|auto]]. cbn [qeffect]. rewrite St, P, Ex, Ag. apply spreads_vle; auto using vle_refl.
        * eapply Af; eauto. cbn [qeffect]. rewrite St, P, Ex, Ag. reflexivity.
    - destruct (stack t (q_run q)) as [|[n id o from [v|m|a' k|a' again k|k]] rest] eqn:St; try discriminate. apply qnext_inj in S; subst q'.
      match goal with |- flowing _ _ ?x _ => set (q' := x) end.
      assert (Ho : forall u, holder u q' = holder u q) by (intros u; unfold holder, q'; proj; rewrite stack_put; destruct (Nat.eqb_spec u t) as [->|]; [rewrite St|]; reflexivity).
      split; [rewrite Ho; apply vle_refl|]. split; [|split; [intros; apply le_n|split]].
      + rewrite Ho. apply spreads_vle; auto using vle_refl.
      + unfold deep. rewrite Ho. exact D.
      + intros u N. split; [reflexivity|apply Ho].
  Qed.
  (** [reserve_maximum_capacity] *)
  Lemma reserve_flow q n q' : qstep E q (QReserve n) = QNext q' -> (forall p, qmsg q' p = qmsg q p) /\ (forall i, ww (m_slots (q_mem q') i) = ww (m_slots (q_mem q) i)) /\
    q_view q' = q_view q /\ forall u, holder u q' = holder u q.
  Proof.
    intros S. cbv beta iota zeta delta [qstep] in S. destruct (q_run q) eqn:Q; [|discriminate]. destruct (reserve _ _ _ _) as [m|]; apply qnext_inj in S; subst q'; [|auto].
    split; [intros [[| | |i|] j]; reflexivity|]. split; [reflexivity|]. split; [reflexivity|]. intros u. unfold holder. now rewrite Q.
  Qed.

  (** ** Executions of one vector *)
  Section Exec.
    Variables (l0 : list V) (c0 m0 : nat).
    Lemma qexec_sound q t : qexecution E ro l0 c0 m0 q -> sound q t.
    Proof.
      intros X. destruct (qflat E ro _ _ _ q (answered (q_ans q)) X (consistent_self _)) as (c & cur & Xc & _ & S).
      destruct (execution_SI E ro _ _ _ _ Xc) as (EOK & g & Si & B). split.
      - intros i Q. destruct (si_view _ _ _ _ Si 0) as (_ & _ & _ & A & _). specialize (A i). unfold sl in A. rewrite (qs_mem _ _ _ _ S), Q in A. simpl in A. lia.
      - intros fr rest a kk k y M tv Pr St Ex. split; [eapply (access_views E ro l0 c0 m0); eauto|].
        pose proof (qs_run _ _ _ _ S t (length rest)) as Top. rewrite St, top_frame' in Top. destruct (wlookup _ _) as [x|] eqn:Lk; [|contradiction].
        destruct Top as [(Hid & _ & _ & Ha) _]. apply agr_inv in Ha. rewrite <- Hid, <- (qs_mem _ _ _ _ S), <- (qs_view _ _ _ _ S) in Ex.
        destruct (si_run _ _ _ _ Si _ _ Lk) as (F1 & F2 & L & Vw & Wp). pose proof (BI_fits _ _ B _ _ Lk) as Fx. rewrite <- (qs_mem _ _ _ _ S).
        destruct Pr as [Pr|(again & Pr & Ag)]; rewrite Pr in Ha; destruct Ha as (k' & Hp & Hk); rewrite Hp in Wp, Fx; simpl in Wp.
        + specialize (Wp (w_mem c) (w_view c (agent t (length rest))) (mle_refl _ _) (vle_refl _) (ex_intro _ g (si_wi _ _ _ _ Si)) (si_view _ _ _ _ Si _) (w_mem c) g k (mle_refl _ _) (si_wi _ _ _ _ Si) Vw).
          rewrite Ex in Wp. destruct Wp as [Wp|(_ & g' & L' & A & C & D & F & G)]; [exact Fx|discriminate|]. apply D.
        + specialize (Wp (w_mem c) (w_view c (agent t (length rest))) (mle_refl _ _) (vle_refl _) (ex_intro _ g (si_wi _ _ _ _ Si)) (si_view _ _ _ _ Si _) (w_mem c) g k (mle_refl _ _) (si_wi _ _ _ _ Si) Vw).
          rewrite Ex in Wp. destruct Wp as [Wp|(_ & g' & L' & A & C & D & F & G)]; [exact Fx| |]; [congruence|]. apply D.
    Qed.
    (** nobody knows of writes that were not made *)
    Lemma known_writes q i : qexecution E ro l0 c0 m0 q ->
      (forall x, v_w (q_view q x) i <= ww (m_slots (q_mem q) i)) /\ forall p, v_w (qmsg q p) i <= ww (m_slots (q_mem q) i).
    Proof.
      intros X. destruct (qflat E ro _ _ _ q (answered (q_ans q)) X (consistent_self _)) as (c & cur & Xc & _ & S).
      destruct (execution_SI E ro _ _ _ _ Xc) as (EOK & g & Si & B). pose proof (si_wi _ _ _ _ Si) as W.
      assert (K : forall tv, vok (w_mem c) tv -> v_w tv i <= ww (m_slots (q_mem q) i)).
      { intros tv (_ & _ & _ & _ & A). specialize (A i). unfold sl in A. now rewrite (qs_mem _ _ _ _ S) in A. }
      split; [intros x; rewrite <- (qs_view _ _ _ _ S); apply K; apply (si_view _ _ _ _ Si)|]. unfold qmsg, mmsg. rewrite <- (qs_mem _ _ _ _ S) in K |- *.
      intros [[| | |j|] k]; cbn [fst snd]; unfold told; match goal with |- context [nth_error ?l k] => destruct (nth_error l k) as [m|] eqn:H end; cbn [vbot v_w]; try (cbn; lia); apply K; apply nth_error_In in H.
      - eapply (wi_resv_v _ _ _ _ W); eauto.
      - eapply (wi_wrtn_v _ _ _ _ W); eauto.
      - eapply (wi_cap_v _ _ _ _ W); eauto.
      - eapply (wi_slot_v _ _ _ _ W j); eauto.
      - assert (I : In (flat_res (answered (q_ans q)) m) (w_res c)) by (rewrite (qs_res _ _ _ _ S); apply in_map; assumption).
        destruct (si_res _ _ _ _ Si _ I) as (_ & A & _). exact A.
    Qed.
  End Exec.
End Flow.

Section Across.
  Context {V : Type} (E : nat -> env V) (ro : nat -> bool) (l0 : nat -> list V) (c0 m0 : nat -> nat).
  Implicit Types (c : xcfg V) (q : qcfg V).
  Notation xexecution := (xexecution E ro l0 c0 m0).
  Notation wexec w := (qexecution (E w) (ro w) (l0 w) (c0 w) (m0 w)).

  Lemma x_proj c t w : xexecution c -> exists f, wexec w (set_views (xvecs c w) f) /\ agrees (xvecs c w) f t /\
    forall v a p, v <> w -> exists x, f x = xrel c v a p w.
  Proof.
    intros [Ok R]. apply xreach_within in R as (T & R). specialize (R (Nat.max T (S t)) ltac:(lia)).
    destruct (projects E ro l0 c0 m0 _ w c Ok R) as (f & X & G). exists f. split; [assumption|]. split; [apply (go_view _ _ _ _ G); lia|].
    intros v a p N. exists (agent (ghost (Nat.max T (S t)) v a p) 0). now apply (go_ghost _ _ _ _ G).
  Qed.
  Lemma xexecution_step c l c' : xexecution c -> xclient E ro c l -> xstep E c l = XNext c' -> xexecution c'.
  Proof. intros [A B] C S. split; [assumption|]. econstructor; eauto. Qed.
  Lemma x_sound c t w : xexecution c -> sound (E w) (ro w) (xvecs c w) t.
  Proof.
    intros X. destruct (x_proj c t w X) as (f & Xf & Ag & _). destruct (qexec_sound _ _ _ _ _ _ t Xf) as [A B]. split; [exact A|].
    intros fr rest a kk k y M tv Pr St Ex. specialize (B fr rest a kk k y M tv Pr St). cbn [set_views q_mem q_view] in B. rewrite Ag in B. exact (B Ex).
  Qed.
  Lemma x_writes c w i : xexecution c ->
    (forall t, v_w (knowledge c t w) i <= ww (m_slots (q_mem (xvecs c w)) i)) /\ (forall p, v_w (qmsg (xvecs c w) p) i <= ww (m_slots (q_mem (xvecs c w)) i)) /\
    forall v a p, v <> w -> v_w (xrel c v a p w) i <= ww (m_slots (q_mem (xvecs c w)) i).
  Proof.
    intros X. split; [|split].
    - intros t. destruct (x_proj c t w X) as (f & Xf & Ag & _). destruct (known_writes _ _ _ _ _ _ i Xf) as [A _]. specialize (A (holder t (xvecs c w))).
      cbn [set_views q_view q_mem] in A. unfold knowledge. destruct (holder_agent t (xvecs c w)) as (d & Hd). rewrite Hd in *. now rewrite <- Ag.
    - intros p. destruct (x_proj c 0 w X) as (f & Xf & _ & _). destruct (known_writes _ _ _ _ _ _ i Xf) as [_ A]. apply A.
    - intros v a p N. destruct (x_proj c 0 w X) as (f & Xf & _ & Gh). destruct (Gh v a p N) as (x & <-). destruct (known_writes _ _ _ _ _ _ i Xf) as [A _]. apply A.
  Qed.

  Lemma with_deep q t' v' t : deep q t -> vle (q_view q (holder t' q)) v' -> deep (with_view q t' v') t.
  Proof.
    intros D L d. unfold with_view. cbn [q_view]. change (holder t (QCfg _ _ (q_run q) _ _ _ _ _ _)) with (holder t q).
    assert (Up : forall x, vle (q_view q x) (upd (q_view q) (holder t' q) v' x)) by (intros x; unfold upd; destruct (Nat.eqb_spec x (holder t' q)) as [->|]; [assumption|apply vle_refl]).
    unfold upd at 1. destruct (Nat.eqb_spec (agent t d) (holder t' q)) as [Q|Q]; [|eapply vle_trans; [apply D|apply Up]].
    destruct (holder_agent t' q) as (d' & Hd). assert (t = t') as -> by (rewrite Hd in Q; apply agent_inj in Q; tauto). rewrite upd_same. apply vle_refl.
  Qed.
  Lemma learned_le c v e t w : vle (knowledge c t w) (learned c v e t w).
  Proof. unfold learned. destruct (e_acq e); [apply vle_join_l|apply vle_refl]. Qed.
  Lemma x_deep c : xexecution c -> forall w t, deep (xvecs c w) t.
  Proof.
    intros [Ok R]. induction R as [|c l c' R IH C S]; [intros w t d; apply vle_refl|]. assert (X : xexecution c) by (split; assumption). intros w t.
    destruct l as [v l|t' u]; cbn [xstep] in S.
    - destruct (xmay c v l) eqn:May; [|discriminate]. destruct (qstep (E v) (xvecs c v) l) as [q|f|] eqn:St; try discriminate. injection S as <-. cbn [xvecs].
      unfold vecs_after. destruct (Nat.eqb_spec w v) as [->|N].
      + destruct (by_thread l) as [t'|] eqn:By.
        * assert (Ns : forall u, l <> QSync t' u) by (intros u ->; discriminate).
          destruct (qstep_flow _ (ro v) _ _ _ _ St By Ns (x_sound c t' v X) (IH v t')) as (_ & _ & _ & D & O).
          destruct (Nat.eq_dec t t') as [->|N]; [assumption|]. destruct (O t N) as [O1 O2]. intros d. rewrite O1, O2. destruct (holder_agent t (xvecs c v)) as (d' & Hd).
          rewrite Hd, O1, <- Hd. apply IH.
        * destruct l; try discriminate.
          -- cbv beta iota zeta delta [qstep] in St. destruct (q_run (xvecs c v)); [|discriminate]. destruct (_ <=? _) in St; [|discriminate]. apply qnext_inj in St; subst q. intros d. apply vle_refl.
          -- destruct (reserve_flow _ _ _ _ St) as (_ & _ & Hv & Hh). intros d. rewrite Hv, Hh. apply IH.
      + destruct (by_thread l) as [t'|]; [|apply IH]. destruct (e_acq _) eqn:Ea; [|apply IH]. apply with_deep; [apply IH|]. apply learned_le.
    - destruct (xturn c t'); [|discriminate]. injection S as <-. cbn [xvecs]. apply with_deep; [apply IH|]. apply vle_join_l.
  Qed.

  (** ** Bundles: what a store says about all vectors *)
  Definition bundle c (v age : nat) (p : place) (w : nat) : view :=
    if w =? v then (if age =? xage c v then qmsg (xvecs c v) p else vbot) else xrel c v age p w.
  Lemma vbot_le x : vle vbot x.
  Proof. repeat split; cbn; intros; lia || discriminate. Qed.

  Record xflow c (v t : nat) (e : effect) c' : Prop := MkXFlow {
    xf_up : forall w, vle (knowledge c t w) (knowledge c' t w);
    xf_acq : forall p w, e_acq e = Some p -> vle (bundle c v (xage c v) p w) (knowledge c' t w);
    xf_from : forall w i n, n <= v_w (knowledge c' t w) i -> n <= v_w (knowledge c t w) i \/
      (exists p, e_acq e = Some p /\ n <= v_w (bundle c v (xage c v) p w) i) \/ v_w (knowledge c t w) i = ww (m_slots (q_mem (xvecs c w)) i);
    xf_else : forall u w, u <> t -> knowledge c' u w = knowledge c u w;
    xf_store : forall v' age p, (forall w, bundle c' v' age p w = bundle c v' age p w) \/
      v' = v /\ age = xage c v /\ (forall w, vle (bundle c v age p w) (bundle c' v age p w)) /\
      (forall p' w, e_prev e = Some p' -> vle (bundle c v age p' w) (bundle c' v age p w)) /\
      (e_rel e = true -> forall w, vle (knowledge c' t w) (bundle c' v age p w)) /\
      forall w i n, n <= v_w (bundle c' v age p w) i -> n <= v_w (bundle c v age p w) i \/
        (exists p', e_prev e = Some p' /\ n <= v_w (bundle c v age p' w) i) \/ e_rel e = true /\ n <= v_w (knowledge c' t w) i;
    xf_ww : forall w i, ww (m_slots (q_mem (xvecs c w)) i) <= ww (m_slots (q_mem (xvecs c' w)) i)
  }.

  Lemma with_knowledge q t v u : q_view (with_view q t v) (holder u (with_view q t v)) = if u =? t then v else q_view q (holder u q).
  Proof.
    unfold with_view. cbn [q_view]. change (holder u (QCfg _ _ (q_run q) _ _ _ _ _ _)) with (holder u q). destruct (Nat.eqb_spec u t) as [->|N]; [apply upd_same|].
    apply upd_diff. unfold holder. now apply agent_other.
  Qed.
  Lemma after_knowledge c v l q w u t : w <> v -> by_thread l = Some t ->
    q_view (vecs_after E c v l q w) (holder u (vecs_after E c v l q w)) = if u =? t then learned c v (qeffect (E v) (xvecs c v) l) t w else knowledge c u w.
  Proof.
    intros N By. unfold vecs_after. destruct (Nat.eqb_spec w v); [contradiction|]. rewrite By. unfold learned. destruct (e_acq _) eqn:Ea.
    - rewrite with_knowledge. reflexivity.
    - destruct (Nat.eqb_spec u t) as [->|]; reflexivity.
  Qed.
  Lemma after_mem c v l q w : w <> v -> q_mem (vecs_after E c v l q w) = q_mem (xvecs c w) /\ q_res (vecs_after E c v l q w) = q_res (xvecs c w).
  Proof. intros N. unfold vecs_after. destruct (Nat.eqb_spec w v); [contradiction|]. destruct (by_thread l); [|auto]. destruct (e_acq _); auto. Qed.
  Lemma qmsg_same q q' p : q_mem q' = q_mem q -> q_res q' = q_res q -> qmsg q' p = qmsg q p.
  Proof. intros A B. unfold qmsg. now rewrite A, B. Qed.

  Lemma step_xflow c v l c' t : xexecution c -> xstep E c (XOn v l) = XNext c' -> by_thread l = Some t -> xflow c v t (qeffect (E v) (xvecs c v) l) c'.
  Proof.
    intros X S By. cbn [xstep] in S. destruct (xmay c v l) eqn:May; [|discriminate]. destruct (qstep (E v) (xvecs c v) l) as [q|f|] eqn:St; try discriminate. injection S as <-.
    assert (Ns : forall u, l <> QSync t u) by (intros u ->; discriminate). assert (Nc : l <> QClear) by (intros ->; discriminate).
    destruct (qstep_flow _ (ro v) _ _ _ _ St By Ns (x_sound c t v X) (x_deep c X v t)) as (Up & (SA & SB & SC) & Ww & _ & O).
    replace (match l with QClear => set_at (xage c) v (S (xage c v)) | _ => xage c end) with (xage c) by (destruct l; reflexivity || congruence).
    set (e := qeffect (E v) (xvecs c v) l) in *. match goal with |- xflow _ _ _ _ ?x => set (c' := x) end.
    assert (Kv : knowledge c' t v = q_view q (holder t q)) by (unfold knowledge, c'; cbn [xvecs]; now rewrite (after_own E)).
    assert (Kw : forall w, w <> v -> knowledge c' t w = learned c v e t w).
    { intros w N. unfold knowledge, c'; cbn [xvecs]. rewrite (after_knowledge c v l q w t t N By), Nat.eqb_refl. reflexivity. }
    assert (Bv : forall p, bundle c v (xage c v) p v = qmsg (xvecs c v) p) by (intros p; unfold bundle; now rewrite !Nat.eqb_refl).
    assert (Bw : forall w p, w <> v -> bundle c v (xage c v) p w = xrel c v (xage c v) p w) by (intros w p N; unfold bundle; destruct (Nat.eqb_spec w v); congruence).
    assert (Bv' : forall p, bundle c' v (xage c v) p v = qmsg q p) by (intros p; unfold bundle, c'; cbn [xvecs xage]; now rewrite !Nat.eqb_refl, (after_own E)).
    constructor.
    - intros w. destruct (Nat.eq_dec w v) as [->|N]; [rewrite Kv; exact Up|]. rewrite (Kw w N). apply learned_le.
    - intros p w Hp. destruct (Nat.eq_dec w v) as [->|N]; [rewrite Kv, Bv; now apply SA|]. rewrite (Kw w N), (Bw w p N). unfold learned. rewrite Hp. apply vle_join_r.
    - intros w i n H. destruct (Nat.eq_dec w v) as [->|N].
      + rewrite Kv in H. destruct (SB i n H) as [H1|[(p & H1 & H2)|H1]]; auto. right. left. exists p. now rewrite Bv.
      + rewrite (Kw w N) in H. unfold learned in H. destruct (e_acq e) as [p|] eqn:Ea; [|auto]. apply join_w in H as [H|H]; [auto|]. right. left. exists p. now rewrite (Bw w p N).
    - intros u w N. destruct (Nat.eq_dec w v) as [->|Nw].
      + unfold knowledge, c'; cbn [xvecs]. rewrite (after_own E). destruct (O u N) as [O1 O2]. rewrite O2. destruct (holder_agent u (xvecs c v)) as (d & ->). apply O1.
      + unfold knowledge at 1, c'; cbn [xvecs]. rewrite (after_knowledge c v l q w u t Nw By). destruct (Nat.eqb_spec u t); [contradiction|reflexivity].
    - intros v' age p. assert (Rel : rel_after E c v l = match e_new e with
        | Some p => fun v' a p' w => if (v' =? v) && (a =? xage c v) && place_eqb p' p && negb (w =? v) then released c v e t p w else xrel c v' a p' w
        | None => xrel c end) by (unfold rel_after; rewrite By; fold e; destruct l; try congruence; reflexivity).
      assert (D : (v' = v /\ age = xage c v /\ e_new e = Some p) \/ ~ (v' = v /\ age = xage c v /\ e_new e = Some p)).
      { destruct (Nat.eq_dec v' v) as [->|]; [|tauto]. destruct (Nat.eq_dec age (xage c v)) as [->|]; [|tauto]. destruct (e_new e) as [p0|]; [|right; intros (_ & _ & ?); discriminate].
        destruct (place_eqb p p0) eqn:Q; [apply place_eq in Q as ->; auto|]. right. intros (_ & _ & [= ->]). rewrite (proj2 (place_eq p p) eq_refl) in Q. discriminate. }
      destruct D as [(-> & -> & En)|D].
      + destruct (SC p) as [[_ Hs]|(_ & H2 & H3 & H4 & H5)]; [contradiction|]. right. split; [reflexivity|]. split; [reflexivity|].
        assert (Bw' : forall w, w <> v -> bundle c' v (xage c v) p w = released c v e t p w).
        { intros w N. unfold bundle. destruct (Nat.eqb_spec w v); [contradiction|]. unfold c'; cbn [xrel]. rewrite Rel, En, !Nat.eqb_refl, (proj2 (place_eq p p) eq_refl).
          destruct (Nat.eqb_spec w v); [contradiction|]. reflexivity. }
        split; [|split; [|split]].
        * intros w. destruct (Nat.eq_dec w v) as [->|N]; [rewrite Bv, H2; apply vbot_le|]. rewrite (Bw' w N), (Bw w p N). unfold released.
          destruct (e_prev e), (e_rel e); try apply vle_refl; try apply vle_join_l. eapply vle_trans; [apply vle_join_l|apply vle_join_l].
        * intros p' w Hp. destruct (Nat.eq_dec w v) as [->|N]; [rewrite Bv, Bv'; now apply H3|]. rewrite (Bw' w N), (Bw w p' N). unfold released. rewrite Hp.
          destruct (e_rel e); [|apply vle_join_r]. eapply vle_trans; [apply vle_join_r|apply vle_join_l].
        * intros Hr w. destruct (Nat.eq_dec w v) as [->|N]; [rewrite Kv, Bv'; now apply H4|]. rewrite (Bw' w N), (Kw w N). unfold released. rewrite Hr. apply vle_join_r.
        * intros w i n H. destruct (Nat.eq_dec w v) as [->|N].
          -- rewrite Bv' in H. destruct (H5 i n H) as [(p' & K1 & K2)|[K1 K2]]; [right; left; exists p'; now rewrite Bv|]. right. right. now rewrite Kv.
          -- rewrite (Bw' w N) in H. rewrite (Bw w p N), (Kw w N). unfold released in H. destruct (e_rel e) eqn:Er; [apply join_w in H as [H|H]; [|now right; right]|];
               (destruct (e_prev e) as [p'|] eqn:Ep; [apply join_w in H as [H|H]; [now left|]; right; left; exists p'; now rewrite (Bw w p' N)|now left]).
      + left. intros w. unfold bundle. cbn [xage]. destruct (Nat.eqb_spec w v') as [->|N].
        * change (xage c' v') with (xage c v'). destruct (Nat.eqb_spec age (xage c v')) as [->|]; [|reflexivity]. unfold c'; cbn [xvecs]. destruct (Nat.eq_dec v' v) as [->|Nv].
          -- rewrite (after_own E). destruct (SC p) as [[Hs _]|(H1 & _)]; [assumption|]. exfalso. auto.
          -- destruct (after_mem c v l q v' Nv). now apply qmsg_same.
        * unfold c'; cbn [xrel]. rewrite Rel. destruct (e_new e) as [p0|] eqn:En; [|reflexivity].
          destruct (Nat.eqb_spec v' v) as [->|]; [|reflexivity]. destruct (Nat.eqb_spec age (xage c v)) as [->|]; [|reflexivity]. destruct (place_eqb p p0) eqn:Q; [|reflexivity].
          apply place_eq in Q as ->. exfalso. auto.
    - intros w i. destruct (Nat.eq_dec w v) as [->|N]; unfold c'; cbn [xvecs]; [rewrite (after_own E); apply Ww|]. destruct (after_mem c v l q w N) as [-> _]. apply le_n.
  Qed.

  (** ** Whoever knows of the [n]-th write of position [i] of vector [b], knows [G] of vector [a] *)
  Section Carry.
    Variables (a b i n : nat) (G : view).
    Hypotheses (Nab : a <> b) (Pos : 0 < n).
    Definition carries (k : nat -> view) : Prop := n <= v_w (k b) i -> vle G (k a).
    Record flows c : Prop := MkFlows {
      fl_thread : forall t, carries (knowledge c t);
      fl_store : forall v age p, carries (bundle c v age p);
      fl_ww : n <= ww (m_slots (q_mem (xvecs c b)) i)
    }.
    Lemma flows_step c l c' : xexecution c -> flows c -> keeping E (fun w => w = a \/ w = b) ro c l -> xstep E c l = XNext c' -> flows c'.
    Proof.
      intros X [Ft Fs Fw] [C K] S. destruct l as [v l|t u].
      - destruct (by_thread l) as [t|] eqn:By.
        + destruct (step_xflow c v l c' t X S By) as [Up Ac Fr El St Ww]. set (e := qeffect (E v) (xvecs c v) l) in *.
          assert (Kt : carries (knowledge c' t)).
          { intros H. destruct (Fr b i n H) as [H1|[(p & H1 & H2)|H1]].
            - eapply vle_trans; [apply (Ft t H1)|apply Up].
            - eapply vle_trans; [apply (Fs _ _ _ H2)|now apply Ac].
            - eapply vle_trans; [apply (Ft t); rewrite H1; exact Fw|apply Up]. }
          constructor.
          * intros u. destruct (Nat.eq_dec u t) as [->|N]; [exact Kt|]. intros H. rewrite El in * by assumption. now apply Ft.
          * intros v' age p. destruct (St v' age p) as [Q|(-> & -> & B0 & B1 & B2 & B3)]; [intros H; rewrite Q in *; now apply Fs|].
            intros H. destruct (B3 b i n H) as [H1|[(p' & H1 & H2)|[H1 H2]]].
            -- eapply vle_trans; [apply (Fs _ _ _ H1)|apply B0].
            -- eapply vle_trans; [apply (Fs _ _ _ H2)|now apply B1].
            -- eapply vle_trans; [apply (Kt H2)|now apply B2].
          * specialize (Ww b i). lia.
        + cbn [xstep] in S. destruct (xmay c v l) eqn:May; [|discriminate]. destruct (qstep (E v) (xvecs c v) l) as [q|f|] eqn:Sq; try discriminate. injection S as <-.
          assert (Av : forall w, w <> v -> vecs_after E c v l q w = xvecs c w) by (intros w N; unfold vecs_after; rewrite By; destruct (Nat.eqb_spec w v); [contradiction|reflexivity]).
          destruct l as [| | | | |m]; try discriminate.
          * assert (N : v <> a /\ v <> b) by (split; intros ->; [apply (K a (or_introl eq_refl) eq_refl)|apply (K b (or_intror eq_refl) eq_refl)]). destruct N as [Na Nb]. constructor.
            -- intros t. unfold carries, knowledge. cbn [xvecs]. rewrite !Av by congruence. apply Ft.
            -- intros v' age p. pose proof (Fs v' age p) as H. unfold carries, bundle in *. cbn [xvecs xrel xage rel_after] in *. unfold set_at.
               destruct (Nat.eqb_spec b v) as [|_]; [congruence|]. destruct (Nat.eqb_spec a v) as [|_]; [congruence|].
               destruct (Nat.eqb_spec b v') as [Qb|Nb']; destruct (Nat.eqb_spec a v') as [Qa|Na']; try congruence; try exact H;
                 (destruct (Nat.eqb_spec v' v); [congruence|]; now rewrite Av by congruence).
            -- cbn [xvecs]. now rewrite Av by congruence.
          * destruct (reserve_flow _ _ _ _ Sq) as (Qm & Qw & Qv & Qh).
            assert (Kn : forall w t, q_view (vecs_after E c v (QReserve m) q w) (holder t (vecs_after E c v (QReserve m) q w)) = knowledge c t w).
            { intros w t. destruct (Nat.eq_dec w v) as [->|N]; [|rewrite Av by assumption; reflexivity]. rewrite (after_own E), Qv, Qh. reflexivity. }
            assert (Mn : forall w p, qmsg (vecs_after E c v (QReserve m) q w) p = qmsg (xvecs c w) p).
            { intros w p. destruct (Nat.eq_dec w v) as [->|N]; [rewrite (after_own E); apply Qm|now rewrite Av]. }
            constructor.
            -- intros t. unfold carries, knowledge. cbn [xvecs]. rewrite !Kn. apply Ft.
            -- intros v' age p. pose proof (Fs v' age p) as H. unfold carries, bundle in *. cbn [xvecs xrel xage rel_after by_thread]. now rewrite !Mn.
            -- cbn [xvecs]. destruct (Nat.eq_dec b v) as [->|N]; [rewrite (after_own E), Qw; assumption|now rewrite Av].
      - cbn [xstep] in S. destruct (xturn c t); [|discriminate]. injection S as <-. constructor.
        + intros u'. unfold carries, knowledge. cbn [xvecs]. rewrite !with_knowledge. destruct (Nat.eqb_spec u' t) as [->|]; [|apply Ft].
          intros H. apply join_w in H as [H|H]; [eapply vle_trans; [apply (Ft t H)|apply vle_join_l]|eapply vle_trans; [apply (Ft u H)|apply vle_join_r]].
        + intros v age p. exact (Fs v age p).
        + exact Fw.
    Qed.
    Lemma keeping_exec W c c' : xexecution c -> xreach E (keeping E W ro) c c' -> xexecution c'.
    Proof. intros X R. induction R as [|d l d' R IH [C _] S]; [assumption|]. eapply xexecution_step; eauto. Qed.
    Lemma flows_reach c c' : xexecution c -> flows c -> xreach E (keeping E (fun w => w = a \/ w = b) ro) c c' -> flows c'.
    Proof. intros X F R. induction R as [|d l d' R IH C S]; [assumption|]. exact (flows_step d l d' (keeping_exec _ _ _ X R) IH C S). Qed.
    Lemma flows_use c t : flows c -> v_w (knowledge c t b) i = ww (m_slots (q_mem (xvecs c b)) i) -> vle G (knowledge c t a).
    Proof. intros [Ft _ Fw] H. apply Ft. lia. Qed.
  End Carry.

  (** A write of position [i] of [b]: whoever knows of it knows what the writer knew. *)
  Lemma flows_write a b i c l c' t : xexecution c -> xstep E c (XOn b l) = XNext c' -> by_thread l = Some t -> a <> b ->
    ww (m_slots (q_mem (xvecs c' b)) i) = S (ww (m_slots (q_mem (xvecs c b)) i)) ->
    flows a b i (S (ww (m_slots (q_mem (xvecs c b)) i))) (knowledge c t a) c'.
  Proof.
    intros X S By N W. destruct (step_xflow c b l c' t X S By) as [Up Ac Fr El St Ww]. destruct (x_writes c b i X) as (W1 & W2 & W3).
    assert (Old : forall v age p, ~ Datatypes.S (ww (m_slots (q_mem (xvecs c b)) i)) <= v_w (bundle c v age p b) i).
    { intros v age p H. unfold bundle in H. destruct (Nat.eqb_spec b v) as [<-|Nv].
      - destruct (age =? xage c b); [|cbn in H; lia]. specialize (W2 p). lia.
      - specialize (W3 v age p (not_eq_sym Nv)). lia. }
    constructor.
    - intros u H. destruct (Nat.eq_dec u t) as [->|Nu]; [apply Up|]. rewrite El in H by assumption. specialize (W1 u). lia.
    - intros v age p H. destruct (St v age p) as [Q|(-> & -> & B0 & B1 & B2 & B3)]; [rewrite Q in H; destruct (Old _ _ _ H)|].
      destruct (B3 b i _ H) as [H1|[(p' & H1 & H2)|[H1 H2]]]; [destruct (Old _ _ _ H1)|destruct (Old _ _ _ H2)|]. eapply vle_trans; [apply Up|now apply B2].
    - rewrite W. apply le_n.
  Qed.

  (** ** Accesses *)
  Lemma access_known (F : env V) id (x : act V) k M tv y M' tv' e i : Weak.wexec F id x k M tv = WDone y M' tv' -> In e (wlog M x y) -> on_elem i e \/ changes i e ->
    v_w tv i = ww (m_slots M i).
  Proof.
    intros X I H. destruct x; cbn [wlog] in I; try contradiction; cbn [Weak.wexec] in X; unfold with_wslot in X;
      repeat (match type of X with
              | context [if ?e then _ else _] => destruct e eqn:?
              | context [match ?e with _ => _ end] => destruct e eqn:? end; try discriminate).
    all: repeat (match type of I with context [match ?e with _ => _ end] => destruct e eqn:? end; try contradiction).
    all: destruct I as [<-|[]]; cbn [on_elem changes] in H.
    - tauto.
    - destruct H as [->|[]]. now apply Nat.eqb_eq.
    - assert (i0 = i) as -> by tauto. now apply may_w.
    - repeat match goal with H : _ && _ = true |- _ => apply andb_true_iff in H as [? ?] end.
      assert (D : i0 = i \/ j = i) by tauto. destruct D as [->| ->]; now apply may_w.
    - destruct H as [[]| ->]. now apply may_w.
  Qed.
  (** The thread that makes an access to position [i] of [b] knows of all its writes. *)
  Lemma accessing c b l c' j t d e i : xstep E c (XOn b l) = XNext c' -> q_hist (xvecs c' b) = q_hist (xvecs c b) ++ [NAcc j t d e] ->
    (on_elem i e \/ changes i e -> v_w (knowledge c t b) i = ww (m_slots (q_mem (xvecs c b)) i)) /\
    (changes i e -> ww (m_slots (q_mem (xvecs c' b)) i) = S (ww (m_slots (q_mem (xvecs c b)) i))) /\ by_thread l = Some t.
  Proof.
    intros S H. cbn [xstep] in S. destruct (xmay c b l); [|discriminate]. destruct (qstep (E b) (xvecs c b) l) as [q|f|] eqn:Sq; try discriminate. injection S as <-.
    cbn [xvecs] in *. rewrite (after_own E) in *. destruct (acc_step _ _ _ _ _ _ _ _ Sq H) as (fr & rest & k & a & y & M & tv & p & St & Ln & Hj & Ex & Lg & Hq).
    assert (Hk : knowledge c t b = q_view (xvecs c b) (agent t d)) by (unfold knowledge, holder; rewrite St; cbn [length pred]; now rewrite Ln).
    rewrite Hk. assert (I : In e (wlog (q_mem (xvecs c b)) a y)) by (rewrite Lg; now left). split; [|split].
    - intros D. eapply access_known; eauto.
    - intros C. subst q. unfold qafter. cbn [q_mem]. eapply changed; eauto.
    - assert (No : q_hist (xvecs c b) <> q_hist (xvecs c b) ++ [NAcc j t d e]) by (intros Q; apply (f_equal (@length _)) in Q; rewrite app_length in Q; simpl in Q; lia).
      clear -Sq H No St. destruct l as [t' o from|t' k'|t' a'|t' u| |n]; cbv beta iota zeta delta [qstep] in Sq.
      + destruct (turn _) in Sq; [|discriminate]. destruct (qfetch _ _ _); [|discriminate]. apply qnext_inj in Sq; subst q. cbn [q_hist] in H. apply app_inv_head in H. discriminate.
      + destruct (stack t' (q_run (xvecs c b))) as [|fr' rest'] eqn:St'; [discriminate|].
        destruct (k_prog fr') as [v|m|a' kk|a' again kk|kk]; [| | | |discriminate].
        * apply qnext_inj in Sq; subst q. cbn [q_hist] in H. apply app_inv_head in H. discriminate.
        * apply qnext_inj in Sq; subst q. cbn [q_hist] in H. apply app_inv_head in H. discriminate.
        * destruct (Weak.wexec _ _ _ _ _ _) as [y' M' tv'|f|] eqn:Ex; [|discriminate ..]. apply qnext_inj in Sq; subst q. unfold qafter in H. cbn [q_hist] in H. apply app_inv_head in H.
          destruct (wlog _ _ _) as [|e' l]; [discriminate|]. injection H as _ <- _ _. reflexivity.
        * destruct (Weak.wexec _ _ _ _ _ _) as [y' M' tv'|f|] eqn:Ex; [|discriminate ..]. destruct (again y'); apply qnext_inj in Sq; subst q; [contradiction|]. unfold qafter in H. cbn [q_hist] in H. apply app_inv_head in H.
          destruct (wlog _ _ _) as [|e' l]; [discriminate|]. injection H as _ <- _ _. reflexivity.
      + destruct (stack t' (q_run (xvecs c b))) as [|[n id o from [v|m|a'' k|a'' again k|k]] rest'] eqn:St'; try discriminate. apply qnext_inj in Sq; subst q. contradiction.
      + destruct (turn _) in Sq; [|discriminate]. apply qnext_inj in Sq; subst q. contradiction.
      + destruct (q_run (xvecs c b)); [|discriminate]. destruct (_ <=? _) in Sq; [|discriminate]. apply qnext_inj in Sq; subst q. cbn [q_hist] in H. apply app_inv_head in H. discriminate.
      + destruct (q_run (xvecs c b)); [|discriminate]. destruct (reserve _ _ _ _); apply qnext_inj in Sq; subst q; [|contradiction]. cbn [q_hist] in H. apply app_inv_head in H. discriminate.
  Qed.
  (** What a thread knows of vector [a], its later calls on [a] know. *)
  Lemma known_later a c c' t G : xexecution c -> vle G (knowledge c t a) -> xreach E (keeping E (fun w => w = a) ro) c c' ->
    vle G (knowledge c' t a) /\ forall y, In y (q_res (xvecs c' a)) -> p_thread y = t -> length (q_hist (xvecs c a)) <= p_id y -> vle G (p_from y).
  Proof.
    intros X H R. pose proof X as [Ok R0]. apply xreach_within in R0 as (T0 & R0). apply xreach_within in R as (T1 & R). set (T := Nat.max (S t) (Nat.max T0 T1)).
    specialize (R0 T ltac:(lia)). specialize (R T ltac:(lia)). destruct (projects E ro l0 c0 m0 T a c Ok R0) as (f & Xf & Gf).
    assert (R' : xreach E (within T (keeping E (eq a) ro)) c c').
    { eapply xreach_more; [|exact R]. intros x l [[C K] B]. split; [|assumption]. split; [assumption|]. intros v <-. now apply K. }
    destruct (xsim_keeping E ro T a c c' f (xlined E ro l0 c0 m0 c X) Gf R') as (f' & Rq & Gf').
    assert (Hf : q_view (set_views (xvecs c a) f) (holder t (set_views (xvecs c a) f)) = knowledge c t a).
    { cbn [set_views q_view]. change (holder t (set_views (xvecs c a) f)) with (holder t (xvecs c a)). unfold knowledge. destruct (holder_agent t (xvecs c a)) as (d & ->). apply (go_view _ _ _ _ Gf). unfold T. lia. }
    assert (Hf' : q_view (set_views (xvecs c' a) f') (holder t (set_views (xvecs c' a) f')) = knowledge c' t a).
    { cbn [set_views q_view]. change (holder t (set_views (xvecs c' a) f')) with (holder t (xvecs c' a)). unfold knowledge. destruct (holder_agent t (xvecs c' a)) as (d & ->). apply (go_view _ _ _ _ Gf'). unfold T. lia. }
    rewrite <- Hf in H. destruct (kept (E a) (ro a) (l0 a) (c0 a) (m0 a) _ _ t G _ Xf Rq H (le_n _)) as [K1 K2]. rewrite Hf' in K1. split; [assumption|].
    intros y I Ht L. apply (K2 (p_id y)); [|exact L]. right. exists y. auto.
  Qed.
  Lemma result_known a c x : xexecution c -> In x (q_res (xvecs c a)) -> vle (p_to x) (knowledge c (p_thread x) a).
  Proof.
    intros X I. destruct (x_proj c (p_thread x) a X) as (f & Xf & Ag & _). destruct (execution_ord _ _ _ _ _ _ Xf) as [O _].
    destruct (O (p_thread x) (p_end x) (p_to x)) as [_ H]; [right; exists x; auto|]. cbn [set_views q_view] in H.
    change (holder (p_thread x) (set_views (xvecs c a) f)) with (holder (p_thread x) (xvecs c a)) in H. unfold knowledge.
    destruct (holder_agent (p_thread x) (xvecs c a)) as (d & Hd). rewrite Hd in *. now rewrite Ag in H.
  Qed.
  (** ** What comes with a result *)
  Lemma xrel_step a b p c l c' : xexecution c -> a <> b -> keeping E (fun w => w = a \/ w = b) ro c l -> xstep E c l = XNext c' ->
    xage c' b = xage c b /\ vle (xrel c b (xage c b) p a) (xrel c' b (xage c b) p a).
  Proof.
    intros X N [C K] S. assert (B : forall c age, bundle c b age p a = xrel c b age p a) by (intros; unfold bundle; destruct (Nat.eqb_spec a b); congruence).
    destruct l as [v l|t u].
    - assert (Ag : xage c' b = xage c b).
      { cbn [xstep] in S. destruct (xmay c v l); [|discriminate]. destruct (qstep (E v) (xvecs c v) l); try discriminate. injection S as <-. cbn [xage]. destruct l; try reflexivity.
        unfold set_at. destruct (Nat.eqb_spec b v) as [->|]; [|reflexivity]. destruct (K v (or_intror eq_refl) eq_refl). }
      split; [exact Ag|]. destruct (by_thread l) as [t|] eqn:By.
      + destruct (xf_store _ _ _ _ _ (step_xflow c v l c' t X S By) b (xage c b) p) as [Q|(-> & _ & B0 & _)]; [rewrite <- !B, Q; apply vle_refl|]. rewrite <- !B. apply B0.
      + cbn [xstep] in S. destruct (xmay c v l); [|discriminate]. destruct (qstep (E v) (xvecs c v) l); try discriminate. injection S as <-. cbn [xrel]. unfold rel_after. destruct l; try discriminate; [|apply vle_refl].
        destruct (Nat.eqb_spec a v) as [->|]; [destruct (K v (or_introl eq_refl) eq_refl)|apply vle_refl].
    - cbn [xstep] in S. destruct (xturn c t); [|discriminate]. injection S as <-. split; [reflexivity|apply vle_refl].
  Qed.
  Lemma xrel_reach a b p c c' : xexecution c -> a <> b -> xreach E (keeping E (fun w => w = a \/ w = b) ro) c c' ->
    xage c' b = xage c b /\ vle (xrel c b (xage c b) p a) (xrel c' b (xage c b) p a).
  Proof.
    intros X N R. induction R as [|d l d' R [A1 A2] C S]; [split; [reflexivity|apply vle_refl]|].
    destruct (xrel_step a b p d l d' (keeping_exec _ _ _ X R) N C S) as [B1 B2]. rewrite A1 in *. split; [assumption|]. eapply vle_trans; eauto.
  Qed.
  Lemma returned a b c t k c' z : xstep E c (XOn b (QStep t k)) = XNext c' -> a <> b -> q_res (xvecs c' b) = q_res (xvecs c b) ++ [z] ->
    p_thread z = t /\ xage c' b = xage c b /\ vle (knowledge c t a) (xrel c' b (xage c b) (LRes, length (q_res (xvecs c b))) a).
  Proof.
    intros S N H. cbn [xstep] in S. destruct (xmay c b (QStep t k)); [|discriminate]. destruct (qstep (E b) (xvecs c b) (QStep t k)) as [q|f|] eqn:Sq; try discriminate. injection S as <-.
    cbn [xvecs] in H. rewrite (after_own E) in H. cbn [xage xrel]. unfold rel_after. cbn [by_thread].
    assert (Q : p_thread z = t /\ qeffect (E b) (xvecs c b) (QStep t k) = Eff None (Some (LRes, length (q_res (xvecs c b)))) None true).
    { cbn [qeffect]. cbv beta iota zeta delta [qstep] in Sq. assert (Ne : forall l : list (qresult V), l <> l ++ [z]) by (intros l Q; apply (f_equal (@length _)) in Q; rewrite app_length in Q; cbn in Q; lia).
      destruct (stack t (q_run (xvecs c b))) as [|fr rest]; [discriminate|]. destruct (k_prog fr) as [r|m|a' kk|a' again kk|kk]; [| | | |discriminate].
      - apply qnext_inj in Sq; subst q. cbn [q_res] in H. apply app_inv_head in H. injection H as <-. auto.
      - apply qnext_inj in Sq; subst q. destruct (Ne _ H).
      - destruct (Weak.wexec _ _ _ _ _ _); try discriminate. apply qnext_inj in Sq; subst q. destruct (Ne _ H).
      - destruct (Weak.wexec _ _ _ _ _ _) as [y' M' tv'|f|]; [|discriminate ..]. destruct (again y'); apply qnext_inj in Sq; subst q; destruct (Ne _ H). }
    destruct Q as [Qt Qe]. split; [assumption|]. split; [reflexivity|]. cbn [qeffect] in Qe. rewrite !Qe. cbn [e_new]. rewrite !Nat.eqb_refl, (proj2 (place_eq _ _) eq_refl). destruct (Nat.eqb_spec a b); [contradiction|]. cbn [andb negb].
    unfold released. cbn [e_rel]. eapply vle_trans; [|apply vle_join_r]. apply learned_le.
  Qed.
  Lemma handed a b c u o n c' : xexecution c -> xstep E c (XOn b (QInv u o n)) = XNext c' -> a <> b -> needs (with_answers (fun _ => None) o) <> None ->
    vle (xrel c b (xage c b) (LRes, n) a) (knowledge c' u a).
  Proof.
    intros X S N H. pose proof (xf_acq _ _ _ _ _ (step_xflow c b _ c' u X S eq_refl) (LRes, n) a) as Q. unfold bundle in Q. destruct (Nat.eqb_spec a b); [contradiction|]. apply Q.
    cbn [qeffect]. destruct (needs _); [reflexivity|congruence].
  Qed.
End Across.
