(** * A re-entrant execution under release/acquire is an execution in which the nested calls are made by
      other threads. *)

From Coq Require Import List Arith Bool Lia.
From Verif.Model Require Import Prog Mem Deps State Elem Vec Excl Machine Reentrant.
From Verif Require Import Client Nested.
From Verif.RA Require Import Weak WTrace WReentrant WInv WStep WSound.
From Verif.Logic Require Import Reentry.
Import ListNotations.

Section Same.
  Context {V : Type}.
  Implicit Types (o : rop V).
  Lemma same_needs o u u' : needs (with_answers u o) = needs (with_answers u' o).
  Proof. destruct o; auto. Qed.
  Lemma same_grows o u : grows (with_answers u o) = rgrows o.
  Proof. destruct o; auto. Qed.
  Lemma same_overran o u u' m : overran (with_answers u o) m -> overran (with_answers u' o) m.
  Proof. intros [H|[H [f Q]]]; [now left|right]. split; [exact H|]. destruct o; try discriminate; simpl in *; eauto. Qed.
  Lemma same_fetch w o u from (l : list (qresult V)) : fetch (with_answers u o) from (map (flat_res w) l) = qfetch o from l.
  Proof.
    unfold fetch, qfetch. rewrite (same_needs o u (fun _ => None)). destruct (needs _); [|reflexivity]. rewrite nth_error_map.
    destruct (nth_error l from); reflexivity.
  Qed.
  Lemma top_frame' {F} (fr : F) s : frame_at (fr :: s) (length s) = Some fr.
  Proof. rewrite frame_push, Nat.eqb_refl. reflexivity. Qed.
  Lemma qnext_inj (q q' : qcfg V) : QNext q = QNext q' -> q = q'.
  Proof. congruence. Qed.
End Same.

Section Sim.
  Context {V : Type} (E : env V) (ro : bool) (C0 : wcfg V).
  Implicit Types (q : qcfg V) (c : wcfg V) (w : nat -> nat -> option (ans V)).

  (** about the re-entrant configuration alone *)
  Record qi q : Prop := MkQi {
    qi_ids : forall t d fr, frame_at (stack t (q_run q)) d = Some fr -> nth_error (q_hist q) (k_id fr) = Some (NInv (k_id fr) t d (k_op fr));
    qi_log : forall id a, In (id, a) (q_ans q) -> id < length (q_hist q);
    qi_ne : forall t s, In (t, s) (q_run q) -> s <> []
  }.
  Definition qmatches w (l : list (nat * option (ans V))) (fr : qframe V) (x : wcall V) : Prop :=
    wc_id x = k_num fr /\ wc_op x = with_answers (w (k_id fr)) (k_op fr) /\ wc_from x = k_from fr /\
    agr (fun _ a b => a = b) (dropw (asked (k_id fr) l) (w (k_id fr))) (k_prog fr) (wc_prog x).
  Record qsim w q c (cur : nat -> nat) : Prop := MkQSim {
    qs_mem : w_mem c = q_mem q;
    qs_view : w_view c = q_view q;
    qs_next : w_next c = q_next q;
    qs_res : w_res c = map (flat_res w) (q_res q);
    qs_pan : w_panics c = map (flat_pan w) (q_panics q);
    qs_req : w_req c = q_req q;
    qs_nodup : NoDup (map fst (w_run c));
    qs_run : forall t d, match frame_at (stack t (q_run q)) d, wlookup (agent t d) (w_run c) with
                         | None, None => True
                         | Some fr, Some x => qmatches w (q_ans q) fr x /\ cur (agent t d) = k_id fr
                         | _, _ => False
                         end
  }.

  Lemma qids_differ q t d fr t' d' fr' : qi q -> frame_at (stack t (q_run q)) d = Some fr -> frame_at (stack t' (q_run q)) d' = Some fr' ->
    k_id fr = k_id fr' -> t = t' /\ d = d'.
  Proof.
    intros R H H' e. apply (qi_ids _ R) in H. apply (qi_ids _ R) in H'. rewrite e in H. rewrite H in H'. injection H' as -> -> _. auto.
  Qed.
  Lemma idle_qsim w q c cur : qsim w q c cur -> q_run q = [] -> w_run c = [].
  Proof.
    intros S H. destruct (w_run c) as [|[u x] l] eqn:Q; [reflexivity|]. exfalso. destruct (agent_onto u) as (t & d & ->).
    pose proof (qs_run _ _ _ _ S t d) as M. rewrite H, Q in M. simpl in M. rewrite Nat.eqb_refl in M.
    unfold frame_at in M. simpl in M. destruct d; contradiction.
  Qed.

  Ltac proj := cbn [q_mem q_view q_run q_next q_res q_panics q_req q_hist q_ans w_mem w_view w_run w_next w_res w_panics w_req].

  Lemma qi_step q l q' : qi q -> qstep E q l = QNext q' -> qi q'.
  Proof.
    intros R S.
    assert (Upd : forall t fr p rest M f n rs ps rq lg a', stack t (q_run q) = fr :: rest -> (forall id a, In (id, a) a' -> id < length (q_hist q)) ->
              qi (QCfg M f (put t (QFrame (k_num fr) (k_id fr) (k_op fr) (k_from fr) p :: rest) (q_run q)) n rs ps rq (q_hist q ++ lg) a')).
    { intros t fr p rest M f n rs ps rq lg a' St La. constructor; proj.
      - intros t' d fr'. rewrite stack_put. destruct (Nat.eqb_spec t' t) as [->|N].
        + rewrite frame_push. destruct (Nat.eqb_spec d (length rest)) as [->|].
          * intros [= <-]. cbn [k_id k_op]. rewrite nth_error_app1; [apply (qi_ids _ R); rewrite St; apply top_frame'|].
            apply nth_error_Some. rewrite (qi_ids _ R t (length rest) fr); [discriminate|]. rewrite St. apply top_frame'.
          * intros H. assert (K : frame_at (stack t (q_run q)) d = Some fr') by (rewrite St, frame_push; destruct (Nat.eqb_spec d (length rest)); [contradiction|assumption]).
            apply (qi_ids _ R) in K. rewrite nth_error_app1; [assumption|]. apply nth_error_Some. congruence.
        + intros H. apply (qi_ids _ R) in H. rewrite nth_error_app1; [assumption|]. apply nth_error_Some. congruence.
      - intros id a H. rewrite app_length. specialize (La id a H). lia.
      - intros t' s' H. apply put_in in H as [[-> H]|H]; [discriminate|]. eapply qi_ne; eauto. }
    assert (Pop : forall t fr rest M f n rs ps rq e, stack t (q_run q) = fr :: rest -> qi (QCfg M f (put t rest (q_run q)) n rs ps rq (q_hist q ++ [e]) (q_ans q))).
    { intros t fr rest M f n rs ps rq e St. constructor; proj.
      - intros t' d fr'. rewrite stack_put. intros H. assert (K : frame_at (stack t' (q_run q)) d = Some fr').
        { destruct (Nat.eqb_spec t' t) as [->|N]; [|assumption]. rewrite St, frame_push. pose proof (frame_len _ _ _ H). destruct (Nat.eqb_spec d (length rest)); [lia|assumption]. }
        apply (qi_ids _ R) in K. rewrite nth_error_app1; [assumption|]. apply nth_error_Some. congruence.
      - intros id a H. rewrite app_length. pose proof (qi_log _ R id a H). lia.
      - intros t' s' H. apply put_in in H as [[-> H]|H]; [assumption|]. eapply qi_ne; eauto. }
    destruct l as [t o from|t k|t a|t u| |n]; cbv beta iota zeta delta [qstep] in S.
    - destruct (turn _) in S; [|discriminate]. destruct (qfetch _ _ _) as [x|]; [|discriminate]. apply qnext_inj in S; subst q'. constructor; proj.
      + intros t' d fr. rewrite stack_put. assert (Old : forall t' d fr, frame_at (stack t' (q_run q)) d = Some fr ->
          nth_error (q_hist q ++ [NInv (length (q_hist q)) t (length (stack t (q_run q))) o]) (k_id fr) = Some (NInv (k_id fr) t' d (k_op fr))).
        { intros t1 d1 fr1 H. apply (qi_ids _ R) in H. rewrite nth_error_app1; [assumption|]. apply nth_error_Some. congruence. }
        destruct (Nat.eqb_spec t' t) as [->|N]; [|apply Old]. rewrite frame_push. destruct (Nat.eqb_spec d (length (stack t (q_run q)))) as [->|]; [|apply Old].
        intros [= <-]. cbn [k_id k_op]. rewrite nth_error_app2, Nat.sub_diag by lia. reflexivity.
      + intros id a H. rewrite app_length. pose proof (qi_log _ R id a H). lia.
      + intros t' s' H. apply put_in in H as [[-> H]|H]; [discriminate|]. eapply qi_ne; eauto.
    - destruct (stack t (q_run q)) as [|fr rest] eqn:St; [discriminate|]. destruct (k_prog fr) as [v|m|a kk|a again kk|kk] eqn:P; [| | | |discriminate].
      + apply qnext_inj in S; subst q'. eapply Pop; eauto.
      + apply qnext_inj in S; subst q'. eapply Pop; eauto.
      + destruct (wexec _ _ _ _ _ _) as [y M tv|f|]; [|discriminate ..]. apply qnext_inj in S; subst q'. unfold qafter. eapply Upd; eauto. apply R.
      + destruct (wexec _ _ _ _ _ _) as [y M tv|f|]; [|discriminate ..]. destruct (again y); apply qnext_inj in S; subst q'; [assumption|]. unfold qafter. eapply Upd; eauto. apply R.
    - destruct (stack t (q_run q)) as [|[n id o from [v|m|a' k|a' again k|k]] rest] eqn:St; try discriminate. apply qnext_inj in S; subst q'.
      rewrite <- (app_nil_r (q_hist q)). apply (Upd t (QFrame n id o from (RClo k)) (k a) rest); [assumption|].
      intros j b H. apply in_app_or in H as [H|[H|[]]]; [eapply qi_log; eauto|]. injection H as <- <-.
      apply nth_error_Some. pose proof (qi_ids _ R t (length rest) (QFrame n id o from (RClo k))) as K. rewrite St, top_frame' in K. specialize (K eq_refl). cbn [k_id] in K. congruence.
    - destruct (turn _) in S; [|discriminate]. apply qnext_inj in S; subst q'. constructor; proj; apply R.
    - destruct (q_run q) eqn:Q; [|discriminate]. destruct (_ <=? _) in S; [|discriminate]. apply qnext_inj in S; subst q'. constructor; proj; try contradiction.
      + intros t d fr. unfold frame_at. destruct d; discriminate.
      + intros id a H. rewrite app_length. pose proof (qi_log _ R id a H). lia.
    - destruct (q_run q) eqn:Q; [|discriminate]. destruct (reserve _ _ _ _) as [m|]; [|apply qnext_inj in S; subst q'; assumption]. apply qnext_inj in S; subst q'. constructor; proj; try contradiction.
      + intros t d fr. unfold frame_at. destruct d; discriminate.
      + intros id a H. rewrite app_length. pose proof (qi_log _ R id a H). lia.
  Qed.

  Lemma qmatches_fresh w l id a fr x : k_id fr <> id -> qmatches w l fr x -> qmatches w (l ++ [(id, a)]) fr x.
  Proof. intros N (A & B & D & C). refine (conj A (conj B (conj D _))). rewrite asked_snoc. destruct (Nat.eqb_spec id (k_id fr)); [congruence|assumption]. Qed.

  (** the call on top of a stack changes its program *)
  Lemma qsim_upd w q c cur t fr rest x p p' M tv lg : qsim w q c cur -> stack t (q_run q) = fr :: rest -> wlookup (agent t (length rest)) (w_run c) = Some x ->
    qmatches w (q_ans q) (QFrame (k_num fr) (k_id fr) (k_op fr) (k_from fr) p) (WCall (wc_id x) (wc_op x) (wc_from x) p') ->
    cur (agent t (length rest)) = k_id fr ->
    qsim w (qafter t q fr rest p M tv lg) (wafter (agent t (length rest)) c x p' M tv) cur.
  Proof.
    intros S St Lk Mt Cu. constructor; unfold qafter, wafter; proj; try reflexivity; try apply S.
    - now rewrite (qs_view _ _ _ _ S).
    - cbn [map fst]. constructor; [apply wrem_notin|apply wrem_nd]; apply S.
    - intros t' d. rewrite stack_put. cbn [wlookup]. pose proof (qs_run _ _ _ _ S t' d) as Old.
      destruct (Nat.eqb_spec t' t) as [->|N].
      + rewrite frame_push. destruct (Nat.eqb_spec d (length rest)) as [->|Nd].
        * rewrite Nat.eqb_refl. auto.
        * destruct (Nat.eqb_spec (agent t d) (agent t (length rest))) as [e|Ne]; [apply agent_inj in e; tauto|].
          rewrite wlook_other by assumption. rewrite St, frame_push in Old. destruct (Nat.eqb_spec d (length rest)); [contradiction|assumption].
      + destruct (Nat.eqb_spec (agent t' d) (agent t (length rest))) as [e|Ne]; [apply agent_inj in e; tauto|].
        now rewrite wlook_other by assumption.
  Qed.
  (** the call on top of a stack ends *)
  Lemma qsim_pop w q c cur t fr rest f e rs ps : qsim w q c cur -> stack t (q_run q) = fr :: rest ->
    qsim w (QCfg (q_mem q) f (put t rest (q_run q)) (q_next q) (q_res q ++ rs) (q_panics q ++ ps) (q_req q) (q_hist q ++ e) (q_ans q))
           (WCfg (w_mem c) f (wremove (agent t (length rest)) (w_run c)) (w_next c) (w_res c ++ map (flat_res w) rs) (w_panics c ++ map (flat_pan w) ps) (w_req c)) cur.
  Proof.
    intros S St. constructor; proj; try apply S.
    - reflexivity.
    - now rewrite map_app, (qs_res _ _ _ _ S).
    - now rewrite map_app, (qs_pan _ _ _ _ S).
    - apply wrem_nd, S.
    - intros t' d. rewrite stack_put. pose proof (qs_run _ _ _ _ S t' d) as Old. destruct (Nat.eqb_spec t' t) as [->|N].
      + destruct (Nat.eq_dec d (length rest)) as [->|Nd].
        * rewrite frame_none by lia. rewrite wlook_same by apply S. exact I.
        * rewrite wlook_other by (intros e'; apply agent_inj in e'; tauto).
          rewrite St, frame_push in Old. destruct (Nat.eqb_spec d (length rest)); [contradiction|assumption].
      + rewrite wlook_other by (intros e'; apply agent_inj in e'; tauto). assumption.
  Qed.
  (** knowledge is exchanged *)
  Lemma qsim_learn w q c cur a b : qsim w q c cur -> exists c', wstep E c (WSync a b) = WNext c' /\
    qsim w (QCfg (q_mem q) (learn (q_view q) a b) (q_run q) (q_next q) (q_res q) (q_panics q) (q_req q) (q_hist q) (q_ans q)) c' cur.
  Proof. intros S. eexists. split; [reflexivity|]. constructor; proj; try apply S. unfold learn. now rewrite (qs_view _ _ _ _ S). Qed.

  Notation flat w q := (map (flat_event w) (q_hist q)).
  Lemma trace_more c h cur l c' h' cur' : wtrace E ro C0 c h cur -> wclient E ro c l -> wstep E c l = WNext c' ->
    h' = h ++ wevents E (length h) cur c l -> cur' = wcur (length h) cur l -> wtrace E ro C0 c' h' cur'.
  Proof. intros T W S -> ->. econstructor; eassumption. Qed.
  Lemma trace_sync c h cur a b c' : wtrace E ro C0 c h cur -> wstep E c (WSync a b) = WNext c' -> wtrace E ro C0 c' h cur.
  Proof. intros T S. eapply (trace_more c h cur (WSync a b)); [eassumption|exact I|eassumption| |reflexivity]. simpl. now rewrite app_nil_r. Qed.

  Lemma qsim_enter w q c cur t d : qsim w q c cur -> wtrace E ro C0 c (flat w q) cur -> exists c', wtrace E ro C0 c' (flat w q) cur /\
    qsim w (QCfg (q_mem q) (enter (q_view q) t d) (q_run q) (q_next q) (q_res q) (q_panics q) (q_req q) (q_hist q) (q_ans q)) c' cur.
  Proof.
    intros S T. destruct d as [|d].
    - exists c. split; [assumption|]. constructor; proj; apply S.
    - destruct (qsim_learn w q c cur (agent t (Datatypes.S d)) (agent t d) S) as (c' & St & S'). exists c'. split; [|assumption]. eapply trace_sync; eassumption.
  Qed.
  Lemma qsim_leave w q c cur t d : qsim w q c cur -> wtrace E ro C0 c (flat w q) cur -> exists c', wtrace E ro C0 c' (flat w q) cur /\
    qsim w (QCfg (q_mem q) (leave (q_view q) t d) (q_run q) (q_next q) (q_res q) (q_panics q) (q_req q) (q_hist q) (q_ans q)) c' cur.
  Proof.
    intros S T. destruct d as [|d].
    - exists c. split; [assumption|]. constructor; proj; apply S.
    - destruct (qsim_learn w q c cur (agent t d) (agent t (Datatypes.S d)) S) as (c' & St & S'). exists c'. split; [|assumption]. eapply trace_sync; eassumption.
  Qed.

  Lemma flat_acc' w id t d lg : map (flat_event w) (map (NAcc id t d) lg) = map (EAcc id (agent t d)) lg.
  Proof. now rewrite map_map. Qed.

  (** One step of the re-entrant machine: steps of the flat one. *)
  Lemma qsim_step w q c cur l q' : qi q -> qsim w q c cur -> wtrace E ro C0 c (flat w q) cur -> consistent w (q_ans q') ->
    qclient E ro q l -> qstep E q l = QNext q' ->
    exists c' cur', wtrace E ro C0 c' (flat w q') cur' /\ qsim w q' c' cur'.
  Proof.
    intros R S T Co Cl St. destruct l as [t o from|t k|t a|t u| |n]; cbv beta iota zeta delta [qstep] in St.
    - destruct (turn _) eqn:U in St; [|discriminate]. destruct (qfetch _ _ _) as [x|] eqn:Fx; [|discriminate]. apply qnext_inj in St. subst q'.
      set (d := length (stack t (q_run q))) in *.
      destruct (qsim_enter w q c cur t d S T) as (c1 & T1 & S1). clear S T c. rename c1 into c.
      pose proof (qs_run _ _ _ _ S1 t d) as Top. cbn [q_run] in Top. rewrite frame_none in Top by (unfold d; lia).
      destruct (wlookup (agent t d) (w_run c)) eqn:Lk; [contradiction|].
      pose proof (qs_res _ _ _ _ S1) as Qr. cbn [q_res] in Qr. pose proof (qs_view _ _ _ _ S1) as Qv. cbn [q_view] in Qv.
      pose proof (qs_next _ _ _ _ S1) as Qn. cbn [q_next] in Qn. pose proof (qs_req _ _ _ _ S1) as Qq. cbn [q_req] in Qq.
      pose proof (qs_run _ _ _ _ S1) as Olds. cbn [q_run q_ans] in Olds.
      eexists. exists (upd cur (agent t d) (length (q_hist q))). split.
      + eapply (trace_more c _ cur (WInv (agent t d) (with_answers (w (length (q_hist q))) o) from)); [exact T1| | | |].
        * destruct Cl as [A B]. split; [eapply same_allowed; eassumption|]. rewrite Qq, (same_request o _ (fun _ => None)). exact B.
        * cbn [wstep]. rewrite Lk, Qr, same_fetch, Fx. reflexivity.
        * cbn [wevents]. rewrite map_length. proj. rewrite map_app. reflexivity.
        * cbn [wcur]. now rewrite map_length.
      + constructor; proj; try reflexivity; try apply S1.
        * now rewrite Qv.
        * now rewrite Qn.
        * rewrite Qq. f_equal. apply same_request.
        * cbn [map fst]. constructor; [now apply wlook_none|apply S1].
        * intros t' d'. rewrite stack_put. cbn [wlookup]. pose proof (Olds t' d') as Old.
          assert (Ot : agent t' d' <> agent t d -> upd cur (agent t d) (length (q_hist q)) (agent t' d') = cur (agent t' d')).
          { intros N. unfold upd. destruct (Nat.eqb_spec (agent t' d') (agent t d)); [contradiction|reflexivity]. }
          destruct (Nat.eqb_spec t' t) as [->|N].
          -- rewrite frame_push. fold d. destruct (Nat.eqb_spec d' d) as [->|Nd].
             ++ rewrite Nat.eqb_refl. split; [|unfold upd; now rewrite Nat.eqb_refl].
                refine (conj Qn (conj eq_refl (conj _ _))); [cbn [wc_from k_from]; now rewrite Qv|]. cbn [k_id k_prog wc_prog].
                rewrite asked_fresh by apply R. cbn [dropw]. apply agr_op.
             ++ destruct (Nat.eqb_spec (agent t d') (agent t d)) as [e|Ne]; [apply agent_inj in e; tauto|]. rewrite Ot by assumption. exact Old.
          -- destruct (Nat.eqb_spec (agent t' d') (agent t d)) as [e|Ne]; [apply agent_inj in e; tauto|]. rewrite Ot by assumption. exact Old.
    - destruct (stack t (q_run q)) as [|fr rest] eqn:Sk; [discriminate|].
      pose proof (qs_run _ _ _ _ S t (length rest)) as Top. rewrite Sk, top_frame' in Top. destruct (wlookup _ _) as [x|] eqn:Lk; [|contradiction].
      destruct Top as [Top Cu]. pose proof Top as (Hid & Hop & Hfr & Ha). apply agr_inv in Ha.
      destruct (k_prog fr) as [v|m|a kk|a again kk|kk] eqn:P; [| | | |discriminate].
      + destruct Ha as (b & Pr & <-). apply qnext_inj in St. subst q'. set (d := length rest) in *.
        pose proof (qsim_pop w q c cur t fr rest (q_view q) [NRet (k_id fr) t d v] [QRes (k_num fr) t (k_id fr) (length (q_hist q)) (k_op fr) (k_from fr) v (q_view q (agent t d))] [] S Sk) as S1.
        fold d in S1. eapply qsim_leave in S1; [destruct S1 as (c2 & T2 & S2); exists c2, cur; proj; split; [exact T2|]; proj; rewrite app_nil_r in S2; exact S2|].
        eapply (trace_more c _ cur (WStep (agent t d) k)); [exact T|exact I| | |reflexivity].
        * cbn [wstep]. unfold wstep_thread. rewrite Lk, Pr. cbn [map flat_res]. rewrite app_nil_r. rewrite (qs_view _ _ _ _ S), Hid, Hop, Hfr. reflexivity.
        * cbn [wevents]. rewrite Lk, Pr, Cu. proj. now rewrite map_app.
      + apply qnext_inj in St. subst q'. set (d := length rest) in *.
        pose proof (qsim_pop w q c cur t fr rest (q_view q) [NPan (k_id fr) t d m] [] [(k_num fr, k_id fr, k_op fr, m)] S Sk) as S1.
        fold d in S1. eapply qsim_leave in S1; [destruct S1 as (c2 & T2 & S2); exists c2, cur; proj; split; [exact T2|]; proj; rewrite app_nil_r in S2; exact S2|].
        eapply (trace_more c _ cur (WStep (agent t d) k)); [exact T|exact I| | |reflexivity].
        * cbn [wstep]. unfold wstep_thread. rewrite Lk, Ha. cbn [map flat_pan]. rewrite app_nil_r. rewrite (qs_view _ _ _ _ S), Hid, Hop. reflexivity.
        * cbn [wevents]. rewrite Lk, Ha, Cu. proj. now rewrite map_app.
      + destruct Ha as (k' & Pr & Hk). destruct (wexec _ _ _ _ _ _) as [y M tv|f|] eqn:Ex; [|discriminate ..]. apply qnext_inj in St. subst q'.
        rewrite <- Hid, <- (qs_view _ _ _ _ S), <- (qs_mem _ _ _ _ S) in Ex.
        eexists. exists cur. split; [|apply (qsim_upd w q c cur t fr rest x (kk y) (k' y)); auto; exact (conj Hid (conj Hop (conj Hfr (Hk y))))].
        eapply (trace_more c _ cur (WStep (agent t (length rest)) k)); [exact T|exact I| | |reflexivity].
        * cbn [wstep]. unfold wstep_thread. rewrite Lk, Pr, Ex. reflexivity.
        * cbn [wevents]. rewrite Lk, Pr, Ex, Cu. unfold qafter. proj. rewrite map_app, flat_acc', (qs_mem _ _ _ _ S). reflexivity.
      + destruct Ha as (k' & Pr & Hk). destruct (wexec _ _ _ _ _ _) as [y M tv|f|] eqn:Ex; [|discriminate ..].
        rewrite <- Hid, <- (qs_view _ _ _ _ S), <- (qs_mem _ _ _ _ S) in Ex.
        destruct (again y) eqn:Ag; apply qnext_inj in St; subst q'; [eauto|].
        eexists. exists cur. split; [|apply (qsim_upd w q c cur t fr rest x (kk y) (k' y)); auto; exact (conj Hid (conj Hop (conj Hfr (Hk y))))].
        eapply (trace_more c _ cur (WStep (agent t (length rest)) k)); [exact T|exact I| | |reflexivity].
        * cbn [wstep]. unfold wstep_thread. rewrite Lk, Pr, Ex, Ag. reflexivity.
        * cbn [wevents]. rewrite Lk, Pr, Ex, Ag, Cu. unfold qafter. proj. rewrite map_app, flat_acc', (qs_mem _ _ _ _ S). reflexivity.
    - destruct (stack t (q_run q)) as [|[n id o from [v|m|a' k|a' again k|k]] rest] eqn:Sk; try discriminate. apply qnext_inj in St. subst q'.
      cbn [q_ans] in Co. apply consistent_snoc in Co as [Co Ca]. exists c, cur. split; [exact T|].
      constructor; proj.
      1-7: apply S.
      intros t' d. rewrite stack_put. pose proof (qs_run _ _ _ _ S t' d) as Old.
      assert (TopF : frame_at (stack t (q_run q)) (length rest) = Some (QFrame n id o from (RClo k))) by (rewrite Sk; apply top_frame').
      assert (Other : (t', d) <> (t, length rest) ->
                match frame_at (stack t' (q_run q)) d, wlookup (agent t' d) (w_run c) with
                | None, None => True | Some fr, Some x => qmatches w (q_ans q ++ [(id, a)]) fr x /\ cur (agent t' d) = k_id fr | _, _ => False end).
      { intros N. destruct (frame_at (stack t' (q_run q)) d) as [fr|] eqn:Hf; destruct (wlookup _ _) as [x|]; try contradiction; try exact I.
        destruct Old as [Old Cu]. split; [|assumption].
        apply qmatches_fresh; [|assumption]. intros e. apply N. destruct (qids_differ q t' d fr t (length rest) _ R Hf TopF e) as [-> ->]. reflexivity. }
      destruct (Nat.eqb_spec t' t) as [->|N]; [|apply Other; congruence].
      rewrite frame_push. destruct (Nat.eqb_spec d (length rest)) as [->|Nd].
      + rewrite TopF in Old. destruct (wlookup _ _) as [x|]; [|contradiction]. destruct Old as [(A & B & D & C) Cu]. split; [|exact Cu].
        refine (conj A (conj B (conj D _))).
        cbn [k_id k_prog] in *. apply agr_inv in C. rewrite dropw_0, Ca, dropw_later in C. rewrite asked_snoc, Nat.eqb_refl. exact C.
      + assert (Q : (t, d) <> (t, length rest)) by congruence. specialize (Other Q). rewrite Sk, frame_push in Other.
        destruct (Nat.eqb_spec d (length rest)); [contradiction|assumption].
    - destruct (turn _) in St; [|discriminate]. apply qnext_inj in St. subst q'.
      destruct (qsim_learn w q c cur (holder t q) (holder u q) S) as (c' & Sc & S'). exists c', cur. split; [|exact S']. eapply trace_sync; eassumption.
    - destruct (q_run q) eqn:Q; [|discriminate]. destruct (_ <=? _) eqn:Lq in St; [|discriminate]. apply qnext_inj in St. subst q'. pose proof (idle_qsim _ _ _ _ S Q) as Qc.
      rewrite <- (qs_mem _ _ _ _ S) in Lq. eexists. exists cur. split.
      + eapply (trace_more c _ cur WClear); [exact T| | |cbn [wevents]; proj; now rewrite map_app|reflexivity].
        * intros id o m H. rewrite (qs_pan _ _ _ _ S) in H. apply in_map_iff in H as ([[[n' i'] o'] m'] & He & H). cbn [flat_pan] in He. injection He as <- <- <-.
          intros Ov. exact (Cl _ _ _ _ H (same_overran _ _ _ _ Ov)).
        * cbn [wstep]. rewrite Qc, Lq, (qs_mem _ _ _ _ S), (qs_next _ _ _ _ S). reflexivity.
      + constructor; proj; auto; try constructor. intros t d. unfold frame_at. simpl. destruct d; exact I.
    - destruct (q_run q) eqn:Q; [|discriminate]. pose proof (idle_qsim _ _ _ _ S Q) as Qc.
      destruct (reserve _ _ _ _) as [m|] eqn:Rs; apply qnext_inj in St; subst q'; [|eauto]. rewrite <- (qs_mem _ _ _ _ S) in Rs.
      eexists. exists cur. split.
      + eapply (trace_more c _ cur (WReserve n)); [exact T|exact I| | |reflexivity].
        * cbn [wstep]. rewrite Qc, Rs. reflexivity.
        * cbn [wevents]. rewrite Rs. proj. now rewrite map_app.
      + constructor; proj; try apply S.
        * now rewrite (qs_mem _ _ _ _ S).
        * constructor.
        * intros t d. unfold frame_at. simpl. destruct d; exact I.
  Qed.

  Lemma qlog_grows q l q' : qstep E q l = QNext q' -> exists x, q_ans q' = q_ans q ++ x.
  Proof.
    intros S. destruct l as [t o from|t k|t a|t u| |n]; cbv beta iota zeta delta [qstep] in S.
    all: repeat (match type of S with context [match ?e with _ => _ end] => destruct e end; try discriminate).
    all: apply qnext_inj in S; subst q'.
    all: try (exists []; cbn [qafter q_ans]; now rewrite app_nil_r).
    eexists. reflexivity.
  Qed.

  (** A fault of the re-entrant machine is one of the flat machine. *)
  Lemma qsim_fault w q c cur l f : qsim w q c cur -> qclient E ro q l -> qstep E q l = QFault f ->
    exists l', wclient E ro c l' /\ wstep E c l' = WFault f.
  Proof.
    intros S Cl St. destruct l as [t o from|t k|t a|t u| |n]; cbv beta iota zeta delta [qstep] in St.
    - destruct (turn _) in St; [|discriminate]. destruct (qfetch _ _ _); discriminate.
    - destruct (stack t (q_run q)) as [|fr rest] eqn:Sk; [discriminate|]. exists (WStep (agent t (length rest)) k). split; [exact I|]. cbn [wstep]. unfold wstep_thread.
      pose proof (qs_run _ _ _ _ S t (length rest)) as Top. rewrite Sk, top_frame' in Top. destruct (wlookup _ _) as [x|] eqn:Lk; [|contradiction].
      destruct Top as [(Hid & _ & _ & Ha) _]. apply agr_inv in Ha. rewrite Hid, (qs_mem _ _ _ _ S), (qs_view _ _ _ _ S). destruct (k_prog fr) as [v|m|a kk|a again kk|kk] eqn:P; try discriminate.
      + destruct Ha as (k' & -> & _). destruct (wexec _ _ _ _ _ _); congruence.
      + destruct Ha as (k' & -> & _). destruct (wexec _ _ _ _ _ _) as [y s lg|f'|]; [destruct (again y)| |]; congruence.
    - destruct (stack t (q_run q)) as [|[n id o from [v|m|a' k|a' again k|k]] rest]; discriminate.
    - destruct (turn _) in St; discriminate.
    - destruct (q_run q) eqn:Q; [|discriminate]. exists WClear. split.
      + intros id o m H. rewrite (qs_pan _ _ _ _ S) in H. apply in_map_iff in H as ([[[n' i'] o'] m'] & He & H). cbn [flat_pan] in He. injection He as <- <- <-.
        intros Ov. exact (Cl _ _ _ _ H (same_overran _ _ _ _ Ov)).
      + cbn [wstep]. rewrite (idle_qsim _ _ _ _ S Q), (qs_mem _ _ _ _ S). destruct (_ <=? _); congruence.
    - destruct (q_run q) eqn:Q; [|discriminate]. destruct (reserve _ _ _ _); discriminate.
  Qed.
End Sim.

Section Simulation.
  Context {V : Type} (E : env V) (ro : bool) (l0 : list V) (c0 m0 : nat).
  Lemma qi_start : qi (qstart l0 c0 m0).
  Proof. constructor; cbn [qstart q_run q_hist q_ans]; try contradiction. intros t d fr. unfold frame_at. destruct d; discriminate. Qed.
  Lemma qsim_start w cur : qsim w (qstart l0 c0 m0) (wstart l0 c0 m0) cur.
  Proof. constructor; cbn [qstart wstart q_mem q_view q_run q_next q_res q_panics q_req q_hist q_ans w_mem w_view w_run w_next w_res w_panics w_req map fst]; auto; try constructor. intros t d. unfold frame_at. simpl. destruct d; exact I. Qed.

  Theorem qsimulation q : qreach E (qclient E ro) (qstart l0 c0 m0) q ->
    qi q /\ forall w, consistent w (q_ans q) -> exists c cur, wtrace E ro (wstart l0 c0 m0) c (map (flat_event w) (q_hist q)) cur /\ qsim w q c cur.
  Proof.
    intros Re. induction Re as [|q l q' Re [R IH] P St].
    - split; [apply qi_start|]. intros w _. exists (wstart l0 c0 m0), (fun _ => 0). split; [constructor|apply qsim_start].
    - split; [eapply qi_step; eassumption|]. intros w Co.
      destruct (IH w) as (c & cur & T & S).
      { destruct (qlog_grows _ _ _ _ St) as [x Q]. rewrite Q in Co. now apply consistent_app in Co. }
      eapply qsim_step; eassumption.
  Qed.
End Simulation.
