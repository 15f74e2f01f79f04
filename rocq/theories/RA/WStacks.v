(** * The unfinished calls of a thread over all vectors, under release/acquire. *)

From Coq Require Import List Arith Bool Lia.
From Verif.Model Require Import Prog Mem Deps State Elem Vec Excl Machine Reentrant Network.
From Verif Require Import Client Nested.
From Verif.Logic Require Import Reentry Nesting.
From Verif.RA Require Import Weak WTrace WReentrant WNetwork WNested WLent WProject WFlow.
Import ListNotations.

Section One.
  Context {V : Type} (E : env V).
  Implicit Types (q : qcfg V).

  Definition qids u q : list nat := map k_id (stack u (q_run q)).
  Lemma qstep_ids q l q' : qstep E q l = QNext q' -> forall u,
    match l with
    | QInv t _ _ => qids u q' = if u =? t then length (q_hist q) :: qids u q else qids u q
    | QStep t _ => qids u q' = qids u q \/ u = t /\ exists id, qids u q = id :: qids u q'
    | _ => qids u q' = qids u q
    end.
  Proof.
    intros S u. unfold qids. destruct l as [t o from|t k|t a|t u0| |n]; cbv beta iota zeta delta [qstep] in S.
    - destruct (turn _) in S; [|discriminate]. destruct (qfetch _ _ _) as [x|]; [|discriminate]. apply qnext_inj in S; subst q'. cbn [q_run]. rewrite stack_put.
      destruct (Nat.eqb_spec u t) as [->|]; reflexivity.
    - destruct (stack t (q_run q)) as [|fr rest] eqn:St; [discriminate|].
      assert (Af : forall p M tv lg, map k_id (stack u (q_run (qafter t q fr rest p M tv lg))) = map k_id (stack u (q_run q))).
      { intros. unfold qafter. cbn [q_run]. rewrite stack_put. destruct (Nat.eqb_spec u t) as [->|]; [rewrite St|]; reflexivity. }
      destruct (k_prog fr) as [v|m|a kk|a again kk|kk]; [| | | |discriminate].
      1,2: apply qnext_inj in S; subst q'; cbn [q_run]; rewrite stack_put; destruct (Nat.eqb_spec u t) as [->|]; [right; split; [reflexivity|]; rewrite St; cbn [map]; eauto|now left].
      + destruct (wexec _ _ _ _ _ _) as [y M tv|x|]; [|discriminate ..]. apply qnext_inj in S; subst q'. left. apply Af.
      + destruct (wexec _ _ _ _ _ _) as [y M tv|x|]; [|discriminate ..]. destruct (again y); apply qnext_inj in S; subst q'; left; [reflexivity|apply Af].
    - destruct (stack t (q_run q)) as [|[n id o from [v|m|a' k|a' again k|k]] rest] eqn:St; try discriminate. apply qnext_inj in S; subst q'. cbn [q_run]. rewrite stack_put.
      destruct (Nat.eqb_spec u t) as [->|]; [rewrite St|]; reflexivity.
    - destruct (turn _) in S; [|discriminate]. apply qnext_inj in S; subst q'. reflexivity.
    - destruct (q_run q) eqn:Q; [|discriminate]. destruct (_ <=? _) in S; [|discriminate]. apply qnext_inj in S; subst q'. reflexivity.
    - destruct (q_run q) eqn:Q; [|discriminate]. destruct (reserve _ _ _ _); apply qnext_inj in S; subst q'; [reflexivity|now rewrite Q].
  Qed.
  Lemma qstep_event q l q' : qstep E q l = QNext q' -> q_hist q' = q_hist q \/ exists e, q_hist q' = q_hist q ++ [e] /\
    (caller e = None \/ caller e = Some (length (q_hist q)) /\ is_rend (length (q_hist q)) e = false \/ exists t k id s, l = QStep t k /\ qids t q = id :: s /\ caller e = Some id).
  Proof.
    intros S. unfold qids. destruct l as [t o from|t k|t a|t u0| |n]; cbv beta iota zeta delta [qstep] in S.
    - destruct (turn _) in S; [|discriminate]. destruct (qfetch _ _ _) as [x|]; [|discriminate]. apply qnext_inj in S; subst q'. right. eexists. split; [reflexivity|]. right. left. split; reflexivity.
    - destruct (stack t (q_run q)) as [|fr rest] eqn:St; [discriminate|].
      assert (Af : forall p M tv M0 (a : act V) y, let q' := qafter t q fr rest p M tv (wlog M0 a y) in q_hist q' = q_hist q \/ exists e, q_hist q' = q_hist q ++ [e] /\
        (caller e = None \/ caller e = Some (length (q_hist q)) /\ is_rend (length (q_hist q)) e = false \/ exists t0 k0 id s, QStep (V := V) t k = QStep t0 k0 /\ map k_id (stack t0 (q_run q)) = id :: s /\ caller e = Some id)).
      { intros p M tv M0 a y. cbn zeta. unfold qafter. cbn [q_hist]. destruct (wlog_short M0 a y) as [->|(x & ->)]; [left; apply app_nil_r|]. right. eexists. split; [reflexivity|]. right. right.
        exists t, k, (k_id fr), (map k_id rest). rewrite St. auto. }
      destruct (k_prog fr) as [v|m|a kk|a again kk|kk]; [| | | |discriminate].
      1,2: apply qnext_inj in S; subst q'; right; eexists; split; [reflexivity|]; right; right; exists t, k, (k_id fr), (map k_id rest); rewrite St; auto.
      + destruct (wexec _ _ _ _ _ _) as [y M tv|x|]; [|discriminate ..]. apply qnext_inj in S; subst q'. apply Af.
      + destruct (wexec _ _ _ _ _ _) as [y M tv|x|]; [|discriminate ..]. destruct (again y); apply qnext_inj in S; subst q'; [now left|apply Af].
    - destruct (stack t (q_run q)) as [|[n id o from [v|m|a' k|a' again k|k]] rest] eqn:St; try discriminate. apply qnext_inj in S; subst q'. now left.
    - destruct (turn _) in S; [|discriminate]. apply qnext_inj in S; subst q'. now left.
    - destruct (q_run q) eqn:Q; [|discriminate]. destruct (_ <=? _) in S; [|discriminate]. apply qnext_inj in S; subst q'. right. eexists. split; [reflexivity|]. now left.
    - destruct (q_run q) eqn:Q; [|discriminate]. destruct (reserve _ _ _ _); apply qnext_inj in S; subst q'; [|now left]. right. eexists. split; [reflexivity|]. now left.
  Qed.
End One.

Section All.
  Context {V : Type} (E : nat -> env V) (ro : nat -> bool) (l0 : nat -> list V) (c0 m0 : nat -> nat).
  Implicit Types (c : xcfg V).
  Notation xexec := (xexecution E ro l0 c0 m0).

  Definition owns (w : nat) (l : list (nat * nat)) : list nat := map snd (filter (fun x => fst x =? w) l).
  Lemma owns_cons w x l : owns w (x :: l) = if fst x =? w then snd x :: owns w l else owns w l.
  Proof. unfold owns. cbn [filter]. destruct (fst x =? w); reflexivity. Qed.
  Lemma owns_in w id l : In id (owns w l) <-> In (w, id) l.
  Proof.
    unfold owns. rewrite in_map_iff. split.
    - intros ([w' id'] & <- & I). apply filter_In in I as [I Q]. apply Nat.eqb_eq in Q. cbn [fst snd] in *. now subst.
    - intros I. exists (w, id). split; [reflexivity|]. apply filter_In. split; [assumption|apply Nat.eqb_refl].
  Qed.
  Lemma after_hist c v l q w : w <> v -> q_hist (vecs_after E c v l q w) = q_hist (xvecs c w).
  Proof. intros N. unfold vecs_after. destruct (Nat.eqb_spec w v); [contradiction|]. destruct (by_thread l); [|reflexivity]. destruct (e_acq _); reflexivity. Qed.

  Definition wiredx c : Prop := forall t w, qids t (xvecs c w) = owns w (xopen c t).
  Lemma wiredx_step c l c' : wiredx c -> xstep E c l = XNext c' -> wiredx c'.
  Proof.
    intros W S t w. destruct l as [v l|t0 u]; cbn [xstep] in S.
    2:{ destruct (xturn c t0); [|discriminate]. injection S as <-. exact (W t w). }
    destruct (xmay c v l) eqn:May; [|discriminate]. destruct (qstep (E v) (xvecs c v) l) as [q|f|] eqn:St; try discriminate. injection S as <-. cbn [xvecs xopen].
    pose proof (qstep_ids (E v) _ _ _ St) as K. destruct (Nat.eq_dec w v) as [->|N].
    - rewrite after_own. destruct l as [t0 o from|t0 k|t0 a|t0 u| |n]; cbn [xcalls].
      + rewrite K. unfold set_at. destruct (Nat.eqb_spec t t0) as [->|]; [|apply W]. rewrite owns_cons. cbn [fst snd]. now rewrite Nat.eqb_refl, W.
      + cbn [xmay] in May. unfold xtop in May. assert (Ln : forall x : qcfg V, length (stack t0 (q_run x)) = length (qids t0 x)) by (intros; unfold qids; now rewrite map_length). rewrite !Ln.
        destruct (K t0) as [Q|(_ & id & Q)].
        * rewrite Q, Nat.ltb_irrefl. destruct (K t) as [Q'|(-> & id & Q')]; [rewrite Q'; apply W|]. rewrite Q in Q'. exfalso. apply (f_equal (@length _)) in Q'. simpl in Q'. lia.
        * rewrite Q. replace (length (qids t0 q) <? length (id :: qids t0 q)) with true by (symmetry; apply Nat.ltb_lt; simpl; lia). unfold set_at.
          destruct (Nat.eqb_spec t t0) as [->|Nt]; [|destruct (K t) as [->|[? _]]; [apply W|contradiction]].
          pose proof (W t0 v) as Wt. rewrite Q in Wt. destruct (xopen c t0) as [|[w' id'] rest]; [discriminate|]. apply Nat.eqb_eq in May as ->. rewrite owns_cons in Wt. cbn [fst snd] in Wt.
          rewrite Nat.eqb_refl in Wt. injection Wt as _ Wt. exact Wt.
      + rewrite K. apply W.
      + rewrite K. apply W.
      + rewrite K. apply W.
      + rewrite K. apply W.
    - unfold qids. rewrite after_run by assumption. fold (qids t (xvecs c w)). rewrite W. destruct l as [t0 o from|t0 k|t0 a|t0 u| |n]; cbn [xcalls]; try reflexivity.
      + unfold set_at. destruct (Nat.eqb_spec t t0) as [->|]; [|reflexivity]. rewrite owns_cons. cbn [fst]. destruct (Nat.eqb_spec v w); [congruence|reflexivity].
      + destruct (_ <? _); [|reflexivity]. unfold set_at. destruct (Nat.eqb_spec t t0) as [->|]; [|reflexivity]. cbn [xmay] in May. unfold xtop in May.
        destruct (xopen c t0) as [|[w' id'] rest]; [discriminate|]. apply Nat.eqb_eq in May as ->. rewrite owns_cons. cbn [fst tl]. destruct (Nat.eqb_spec v w); [congruence|reflexivity].
  Qed.
  Lemma x_wired c : xexec c -> wiredx c.
  Proof.
    intros [_ R]. induction R as [|c l c' R IH C S]; [|eapply wiredx_step; eauto]. intros t w. reflexivity.
  Qed.

  Lemma x_nest c w : xexec c -> ri (rof (xvecs c w)) /\ nest (rof (xvecs c w)).
  Proof.
    intros X. destruct (x_proj E ro l0 c0 m0 c 0 w X) as (f & Xf & _). apply qexec_gexec in Xf. change (rof (set_views (xvecs c w) f)) with (rof (xvecs c w)) in Xf.
    eapply gnest_of. exact Xf.
  Qed.
  Lemma frames_ids (s : list (frame V)) id : In id (map (@f_id V) s) <-> exists d fr, frame_at s d = Some fr /\ f_id fr = id.
  Proof.
    unfold frame_at. rewrite in_map_iff. split.
    - intros (fr & <- & I). apply in_rev, In_nth_error in I as (d & I). eauto.
    - intros (d & fr & F & <-). apply nth_error_In in F. apply in_rev in F. eauto.
  Qed.
  Lemma qids_rof u (q : qcfg V) : qids u q = map (@f_id V) (stack u (rrun (rof q))).
  Proof. cbn [rof rrun]. rewrite stack_framed, map_map. reflexivity. Qed.
  Lemma x_calls c t w id : xexec c -> In (w, id) (xopen c t) <-> exists d o, ropen (q_hist (xvecs c w)) id t d o.
  Proof.
    intros X. rewrite <- owns_in, <- (x_wired c X t w), qids_rof, frames_ids. destruct (x_nest c w X) as [R N]. split.
    - intros (d & fr & F & <-). exists d, (f_op fr). split; [exact (ri_ids _ R t d fr F)|exact (ne_open _ N t d fr F)].
    - intros (d & o & O). destruct (ne_frame _ N id t d o O) as (fr & F & Q & _). eauto.
  Qed.
  Lemma ids_nodup c t w : xexec c -> NoDup (qids t (xvecs c w)).
  Proof.
    intros X. destruct (x_nest c w X) as [R _]. rewrite qids_rof. apply (NoDup_nth_error). intros i j Li Q. rewrite map_length in Li.
    set (s := stack t (rrun (rof (xvecs c w)))) in *. assert (Fr : forall k fr, nth_error s k = Some fr -> frame_at s (length s - S k) = Some fr).
    { intros k fr H. unfold frame_at. assert (k < length s) by (apply nth_error_Some; congruence). rewrite (nth_error_nth' _ fr) by (rewrite rev_length; lia).
      rewrite rev_nth by lia. replace (length s - S (length s - S k)) with k by lia. erewrite nth_error_nth by eassumption. reflexivity. }
    rewrite !nth_error_map in Q. destruct (nth_error s i) as [fi|] eqn:Hi; [|apply nth_error_None in Hi; lia].
    destruct (nth_error s j) as [fj|] eqn:Hj; [|discriminate]. cbn in Q. injection Q as Q. assert (j < length s) by (apply nth_error_Some; congruence).
    pose proof (ri_ids _ R t _ _ (Fr _ _ Hi)) as A. pose proof (ri_ids _ R t _ _ (Fr _ _ Hj)) as B. rewrite Q in A. rewrite A in B. injection B as B _. lia.
  Qed.
  Lemma x_silent c l c' t x rest w1 id1 : xexec c -> xstep E c l = XNext c' -> xopen c t = x :: rest -> In (w1, id1) rest ->
    q_hist (xvecs c' w1) = q_hist (xvecs c w1) \/ exists e, q_hist (xvecs c' w1) = q_hist (xvecs c w1) ++ [e] /\ caller e <> Some id1.
  Proof.
    intros X S Op I. destruct l as [v l|t0 u]; cbn [xstep] in S.
    2:{ destruct (xturn c t0); [|discriminate]. injection S as <-. now left. }
    destruct (xmay c v l) eqn:May; [|discriminate]. destruct (qstep (E v) (xvecs c v) l) as [q|f|] eqn:St; try discriminate. injection S as <-. cbn [xvecs].
    destruct (Nat.eq_dec w1 v) as [->|N]; [|left; now apply after_hist]. rewrite after_own.
    assert (Ic : In (v, id1) (xopen c t)) by (rewrite Op; now right). pose proof (proj1 (x_calls c t v id1 X) Ic) as (d & o & O1 & O2).
    destruct (qstep_event (E v) _ _ _ St) as [Q|(e & Q & [Ne|[[Ne _]|(t' & k & id & s & -> & Hs & Ne)]])]; [now left|right; exists e; split; [assumption|]; rewrite Ne ..].
    - discriminate.
    - intros [= <-]. assert (length (q_hist (xvecs c v)) < length (q_hist (xvecs c v))) by (apply nth_error_Some; congruence). lia.
    - intros [= ->]. assert (It : In (v, id1) (xopen c t')) by (apply owns_in; rewrite <- (x_wired c X t' v), Hs; now left).
      pose proof (proj1 (x_calls c t' v id1 X) It) as (d' & o' & O1' & _). rewrite O1 in O1'. injection O1' as <- _ _.
      cbn [xmay] in May. unfold xtop in May. rewrite Op in May. destruct x as [w' i']. apply Nat.eqb_eq in May as ->.
      pose proof (ids_nodup c t v X) as Nd. rewrite (x_wired c X t v), Op, owns_cons in Nd. cbn [fst snd] in Nd. rewrite Nat.eqb_refl in Nd.
      pose proof (x_wired c X t v) as Wt. rewrite Hs, Op, owns_cons in Wt. cbn [fst snd] in Wt. rewrite Nat.eqb_refl in Wt. injection Wt as <- _.
      apply NoDup_cons_iff in Nd as [Nd _]. apply Nd. now apply owns_in.
  Qed.
End All.
