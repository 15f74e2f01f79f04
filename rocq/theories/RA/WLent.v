(** * Closures that call back, under release/acquire: how calls nest, what closures have, and in which
      order calls of one thread are. *)

From Coq Require Import List Arith Bool Lia.
From Verif.Model Require Import Prog Mem Deps State Elem Vec Excl Machine Reentrant.
From Verif Require Import Client Spec Nested.
From Verif.RA Require Import Weak WTrace WReentrant WInv WStep WSound WHist WNested WReads.
From Verif.Logic Require Import Reentry Nesting.
Import ListNotations.
Local Arguments Nat.leb : simpl never.
Local Arguments Nat.ltb : simpl never.
Local Arguments Nat.eqb : simpl never.

(** ** The sequence of moves of the re-entrant machine *)
Section Moves.
  Context {V : Type} (E : env V).
  Implicit Types (q : qcfg V).

  Definition frame_of (fr : qframe V) : frame V := Frame (k_id fr) (k_op fr) (k_prog fr).
  Definition framed (l : list (nat * list (qframe V))) : list (nat * list (frame V)) := map (fun p => (fst p, map frame_of (snd p))) l.
  Definition rof q : rcfg V := RCfg (rsh (rstart [] 0 0)) (framed (q_run q)) (q_hist q) [] (q_ans q).

  Lemma stack_framed t l : stack t (framed l) = map frame_of (stack t l).
  Proof. induction l as [|[u s] l IH]; [reflexivity|]. cbn [framed map fst snd stack]. destruct (t =? u); auto. Qed.
  Lemma put_framed t s l : framed (put t s l) = put t (map frame_of s) (framed l).
  Proof.
    assert (K : framed (filter (fun p => negb (t =? fst p)) l) = filter (fun p => negb (t =? fst p)) (framed l)).
    { induction l as [|[u x] l IH]; [reflexivity|]. cbn [filter framed map fst snd]. destruct (negb (t =? u)); cbn [framed map fst snd]; [f_equal|]; exact IH. }
    unfold put. rewrite <- K. destruct s; reflexivity.
  Qed.
  Lemma turn_framed s : user_turn (map frame_of s) = turn s.
  Proof. destruct s; reflexivity. Qed.
  Lemma wlog_reads M (a : act V) y id t d : length (values_read (map (NAcc id t d) (wlog M a y)) id) = after_read a 0.
  Proof.
    destruct a; simpl; try reflexivity; try (rewrite Nat.eqb_refl; reflexivity).
    destruct (wv _); [|reflexivity]. destruct (wv _); reflexivity.
  Qed.
  Lemma wlog_short M (a : act V) y : wlog M a y = [] \/ exists x, wlog M a y = [x].
  Proof. destruct a; simpl; eauto. destruct (wv _); [|auto]. destruct (wv _); eauto. Qed.

  Lemma rof_after t q fr rest a p M M' tv y : rof (qafter t q fr rest p M' tv (wlog M a y)) = rafter t (rof q) (frame_of fr) (map frame_of rest) p (rsh (rof q)) (wlog M a y).
  Proof. unfold rof, qafter, rafter. cbn [q_run q_hist q_ans rsh rrun rhist rgiven answers f_id f_op frame_of]. rewrite put_framed, map_length. reflexivity. Qed.
  Lemma qstep_gmove q l q' : qstep E q l = QNext q' -> gmove E (rof q) (rof q').
  Proof.
    intros S. destruct l as [t o from|t k|t a|t u| |n]; cbv beta iota zeta delta [qstep] in S.
    - destruct (turn _) eqn:U in S; [|discriminate]. destruct (qfetch _ _ _) as [x|]; [|discriminate]. apply qnext_inj in S; subst q'.
      pose proof (gm_inv E (rof q) t o) as M. unfold rof in *. cbn [q_run q_hist q_ans rsh rrun rhist rgiven answers] in *.
      rewrite put_framed. rewrite stack_framed, turn_framed, map_length in M. exact (M U).
    - destruct (stack t (q_run q)) as [|fr rest] eqn:St; [discriminate|].
      assert (Sf : stack t (rrun (rof q)) = frame_of fr :: map frame_of rest) by (cbn [rof rrun]; rewrite stack_framed, St; reflexivity).
      destruct (k_prog fr) as [v|m|a kk|a again kk|kk] eqn:P; [| | | |discriminate].
      + apply qnext_inj in S; subst q'. pose proof (gm_end E (rof q) t _ _ (NRet (k_id fr) t (length rest) v) [] Sf) as M.
        unfold rof in *. cbn [q_run q_hist q_ans rsh rrun rhist rgiven answers] in *. rewrite put_framed. apply M. left. exists v. rewrite map_length. auto.
      + apply qnext_inj in S; subst q'. pose proof (gm_end E (rof q) t _ _ (NPan (k_id fr) t (length rest) m) [] Sf) as M.
        unfold rof in *. cbn [q_run q_hist q_ans rsh rrun rhist rgiven answers] in *. rewrite put_framed. apply M. right. exists m. rewrite map_length. auto.
      + destruct (wexec _ _ _ _ _ _) as [y M tv|f|]; [|discriminate ..]. apply qnext_inj in S; subst q'. rewrite rof_after.
        eapply (gm_act E (rof q) t _ _ a y); [exact Sf|apply wlog_reads|apply wlog_short|]. left. exists kk. auto.
      + destruct (wexec _ _ _ _ _ _) as [y M tv|f|]; [|discriminate ..]. destruct (again y) eqn:Ag; apply qnext_inj in S; subst q'; [constructor|]. rewrite rof_after.
        eapply (gm_act E (rof q) t _ _ a y); [exact Sf|apply wlog_reads|apply wlog_short|]. right. exists again, kk. auto.
    - destruct (stack t (q_run q)) as [|[n id o from [v|m|a' k|a' again k|k]] rest] eqn:St; try discriminate. apply qnext_inj in S; subst q'.
      assert (Sf : stack t (rrun (rof q)) = Frame id o (RClo k) :: map frame_of rest) by (cbn [rof rrun]; rewrite stack_framed, St; reflexivity).
      pose proof (gm_ans E (rof q) t id o k _ a Sf) as M. unfold rof in *. cbn [q_run q_hist q_ans rsh rrun rhist rgiven answers] in *. rewrite put_framed. exact M.
    - destruct (turn _) in S; [|discriminate]. apply qnext_inj in S; subst q'. constructor.
    - destruct (q_run q) eqn:Q; [|discriminate]. destruct (_ <=? _) in S; [|discriminate]. apply qnext_inj in S; subst q'.
      apply (gm_excl E (rof q) _ NClear []); [cbn [rof rrun]; now rewrite Q|reflexivity].
    - destruct (q_run q) eqn:Q; [|discriminate]. destruct (reserve _ _ _ _) as [m|]; apply qnext_inj in S; subst q'; [|constructor].
      apply (gm_excl E (rof q) _ (NReserve n m) []); [cbn [rof rrun]; now rewrite Q|reflexivity].
  Qed.
  Lemma qreach_gexec P l0 c0 m0 q : qreach E P (qstart l0 c0 m0) q -> gexec E (rof q).
  Proof. induction 1 as [|q l q' R IH C S]; [constructor|]. econstructor; [exact IH|]. eapply qstep_gmove; eauto. Qed.

  (** What holds for the program of a call and for its continuations. *)
  Lemma g_hered (P : rop V -> rprog V (ret V) -> Prop) r :
    (forall o, P o (rop_prog E o)) -> (forall o a k y, P o (RAct a k) -> P o (k y)) -> (forall o a g k y, P o (RSpin a g k) -> P o (k y)) ->
    (forall o k a, P o (RClo k) -> P o (k a)) -> gexec E r -> forall t d fr, frame_at (stack t (rrun r)) d = Some fr -> P (f_op fr) (f_prog fr).
  Proof.
    intros P0 P1 P2 P3. induction 1 as [s|r r' X N M]; [intros t [|d] fr; unfold frame_at; discriminate|].
    destruct M as [|t o U|t fr rest a y s lg p St Y Z C|t id o k rest a St|t fr rest e g St C|s e g Q O]; [assumption| | | | |].
    - intros t' d fr. cbn [rrun]. rewrite stack_put. destruct (Nat.eqb_spec t' t) as [->|]; [|apply N]. rewrite frame_push. destruct (d =? _); [|apply N].
      intros [= <-]. apply P0.
    - intros t' d f'. unfold rafter. cbn [rrun]. rewrite stack_put. destruct (Nat.eqb_spec t' t) as [->|]; [|apply N]. rewrite frame_push.
      pose proof (N t (length rest) fr) as K. rewrite St, top_frame in K. specialize (K eq_refl).
      destruct (Nat.eqb_spec d (length rest)).
      + intros [= <-]. cbn [f_op f_prog]. destruct C as [(k & C & ->)|(ag & k & C & _ & ->)]; rewrite C in K; eauto.
      + intros H. apply (N t d). now rewrite St, frame_under.
    - intros t' d f'. cbn [rrun]. rewrite stack_put. destruct (Nat.eqb_spec t' t) as [->|]; [|apply N]. rewrite frame_push.
      pose proof (N t (length rest) (Frame id o (RClo k))) as K. rewrite St, top_frame in K. specialize (K eq_refl).
      destruct (Nat.eqb_spec d (length rest)).
      + intros [= <-]. cbn [f_op f_prog] in *. auto.
      + intros H. apply (N t d). now rewrite St, frame_under.
    - intros t' d f'. cbn [rrun]. rewrite stack_put. intros H. apply (N t' d). destruct (Nat.eqb_spec t' t) as [->|]; [|assumption].
      rewrite St. rewrite frame_under; [assumption|]. apply frame_len in H. lia.
    - intros t d fr. cbn [rrun stack]. unfold frame_at. destruct d; discriminate.
  Qed.

  (** [update]: the closure has a [&mut]. *)
  Fixpoint wclo {R} (i : nat) (p : rprog V R) : Prop :=
    match p with
    | RRet _ | RPan _ => True
    | RAct _ k | RSpin _ _ k => forall x, wclo i (k x)
    | RClo k => forall a, (exists f k', k a = RAct (WrEnd i f) k') /\ wclo i (k a)
    end.
  Lemma wclo_noclo {R} i (p : rprog V R) : noclo p -> wclo i p.
  Proof. induction p; simpl; auto; contradiction. Qed.
  Lemma wclo_bind {R S} i (p : rprog V R) (f : R -> rprog V S) : wclo i p -> (forall x, wclo i (f x)) -> wclo i (rbind p f).
  Proof.
    intros H F. induction p as [x|m|a k IH|a g k IH|k IH]; simpl in *; auto.
    intros a. destruct (H a) as [(g & k' & Hk) Hw]. split; [rewrite Hk; simpl; eauto|]. now apply IH.
  Qed.
  Lemma wclo_update i : wclo i (rop_prog E (RElemUpdate i)).
  Proof.
    cbn [rop_prog]. unfold rmap, r_elem_update, r_option_update. apply wclo_bind; [|intros; exact I]. apply wclo_bind; [|intros [|]; exact I].
    apply wclo_bind; [apply wclo_noclo, noclo_lift|]. intros [|]; [|exact I]. cbn. intros _ u. split; [eauto|].
    intros v _. destruct (snd (to_write u v)); exact I.
  Qed.
  Lemma update_wclo r t d fr i : gexec E r -> frame_at (stack t (rrun r)) d = Some fr -> f_op fr = RElemUpdate i -> wclo i (f_prog fr).
  Proof.
    intros X F Ho. refine (g_hered (fun o p => forall i, o = RElemUpdate i -> wclo i p) r _ _ _ _ X t d fr F i Ho).
    - intros o j ->. apply wclo_update.
    - intros o a k y H j Hj. exact (H j Hj y).
    - intros o a g k y H j Hj. exact (H j Hj y).
    - intros o k a H j Hj. exact (proj2 (H j Hj a)).
  Qed.
End Moves.

Section Lent.
  Context {V : Type} (E : env V) (ro : bool) (l0 : list V) (c0 m0 : nat).
  Implicit Types (q : qcfg V) (c : wcfg V).
  Notation qexecution := (qexecution E ro l0 c0 m0).

  Lemma qexecution_step q l q' : qexecution q -> qclient E ro q l -> qstep E q l = QNext q' -> qexecution q'.
  Proof. intros (A & B & C & D & R) P S. repeat (split; [assumption|]). econstructor; eauto. Qed.
  Lemma qflat q w : qexecution q -> consistent w (q_ans q) -> exists c cur, wexecution E ro l0 c0 m0 c /\
    wtrace E ro (wstart l0 c0 m0) c (map (flat_event w) (q_hist q)) cur /\ qsim w q c cur.
  Proof.
    intros (A & B & C & D & R) Co. destruct (qsimulation _ _ _ _ _ _ R) as [_ S]. destruct (S w Co) as (c & cur & T & Sm). exists c, cur.
    split; [|auto]. repeat (split; [assumption|]). eapply wtrace_reach; eauto.
  Qed.
  Lemma qexec_gexec q : qexecution q -> gexec E (rof q).
  Proof. intros (_ & _ & _ & _ & R). eapply qreach_gexec; eauto. Qed.
  Lemma qhist_grows q l q' : qstep E q l = QNext q' -> q_hist q' = q_hist q \/ exists e, q_hist q' = q_hist q ++ [e].
  Proof. intros S. exact (gmove_grows E _ _ (qstep_gmove E _ _ _ S)). Qed.
  Lemma qprefix q k e : qexecution q -> nth_error (q_hist q) k = Some e -> exists q1 l q2,
    qexecution q1 /\ qclient E ro q1 l /\ qstep E q1 l = QNext q2 /\ q_hist q1 = firstn k (q_hist q) /\ q_hist q2 = q_hist q1 ++ [e].
  Proof.
    intros (EO & CO & Le & Lt & Re). induction Re as [|r l r' Re IH P St]; intros H.
    - destruct k; discriminate.
    - assert (X : qexecution r) by (repeat (split; [assumption|]); exact Re).
      assert (Old : nth_error (q_hist r) k = Some e -> firstn k (q_hist r') = firstn k (q_hist r) -> exists q1 l q2,
        qexecution q1 /\ qclient E ro q1 l /\ qstep E q1 l = QNext q2 /\ q_hist q1 = firstn k (q_hist r') /\ q_hist q2 = q_hist q1 ++ [e]).
      { intros K F. destruct (IH K) as (r1 & l1 & r2 & I0 & I1 & I2 & I3 & I4). exists r1, l1, r2. rewrite F. auto. }
      destruct (qhist_grows _ _ _ St) as [Hh|(e' & Hh)]; rewrite Hh in *.
      + now apply Old.
      + apply nth_new in H as [H|[-> ->]].
        * apply Old; [assumption|]. rewrite firstn_app. assert (k < length (q_hist r)) by (apply nth_error_Some; congruence).
          replace (k - length (q_hist r)) with 0 by lia. simpl. now rewrite app_nil_r.
        * exists r, l, r'. repeat (split; [assumption|]). rewrite firstn_app, Nat.sub_diag, firstn_all. simpl. rewrite app_nil_r. auto.
  Qed.

  (** The call around an open call that was lent element [i] has a reference to its value. *)
  Lemma q_held q id id1 o i : qexecution q -> inside (q_hist q) id id1 o -> lends o (length (values_read (firstn id (q_hist q)) id1)) = Some i ->
    rdone (q_hist q) id = false ->
    exists c cur t d x, wexecution E ro l0 c0 m0 c /\ qsim (answered (q_ans q)) q c cur /\ nth_error (q_hist q) id1 = Some (NInv id1 t d o) /\
      S d < length (stack t (q_run q)) /\ wlookup (agent t d) (w_run c) = Some x /\
      ((exists k, wc_prog x = Act (RdEnd i) k) /\ o <> RElemUpdate i \/ exists f k, wc_prog x = Act (WrEnd i f) k).
  Proof.
    intros X Ins Le D. pose proof (qexec_gexec _ X) as G. destruct (qflat q (answered (q_ans q)) X (consistent_self _)) as (c & cur & Xc & _ & S).
    destruct (gnest_of E _ G) as [_ N]. change (q_hist q) with (rhist (rof q)) in Ins, Le, D.
    pose proof (g_outer_open E _ _ _ _ G Ins D) as D1. destruct (g_both_open E _ _ _ _ G Ins D D1) as (t & d & fr & k & F & Fi & Fo & Fp & I1 & Ls).
    pose proof (ne_clo _ N _ _ _ F) as C. rewrite Fp, Fi, Fo, (g_outer_values E _ _ _ _ G Ins D) in C. destruct C as [C _]. specialize (C i Le).
    pose proof (update_wclo E _ _ _ _ i G F) as U. rewrite Fp, Fo in U.
    assert (Ff : exists fq, frame_at (stack t (q_run q)) d = Some fq /\ fr = frame_of fq).
    { cbn [rof rrun] in F. rewrite stack_framed in F. unfold frame_at in F |- *. rewrite <- map_rev, nth_error_map in F.
      destruct (nth_error (rev (stack t (q_run q))) d) as [fq|]; [|discriminate]. injection F as <-. eauto. }
    destruct Ff as (fq & Fq & ->). pose proof (qs_run _ _ _ _ S t d) as M. rewrite Fq in M. destruct (wlookup (agent t d) (w_run c)) as [x|] eqn:Lk; [|contradiction].
    destruct M as ((_ & _ & _ & A) & _). cbn [frame_of f_prog f_id f_op] in *. rewrite Fp in A. apply agr_inv in A. set (a := dropw _ _ 0) in A.
    specialize (C a). exists c, cur, t, d, x. split; [assumption|]. split; [assumption|]. split; [exact I1|]. split.
    { cbn [rof rrun] in Ls. rewrite stack_framed, map_length in Ls. exact Ls. }
    split; [assumption|]. destruct (k a) as [| |b k'| |] eqn:Ka; try contradiction. apply agr_inv in A as (k'' & A & _).
    destruct b; try contradiction; simpl in C; subst i0; [left|right; eauto]. split; [eauto|]. intros e. destruct (U e a) as [(f & k3 & Q) _].
    rewrite Ka in Q. discriminate.
  Qed.
  (** Nobody else has changed it, or read it if the reference is a [&mut]. *)
  Lemma held_slot c t x i : wexecution E ro l0 c0 m0 c -> wlookup t (w_run c) = Some x ->
    (exists k, wc_prog x = Act (RdEnd i) k) \/ (exists f k, wc_prog x = Act (WrEnd i f) k) -> v_w (w_view c t) i = ww (m_slots (w_mem c) i).
  Proof.
    intros X Lk P. assert (NF : forall f, wstep E c (WStep t 0) <> WFault f) by (intros f; eapply execution_safe; eauto; exact I).
    simpl in NF. unfold wstep_thread in NF. rewrite Lk in NF. destruct P as [(k & P)|(f & k & P)]; rewrite P in NF; simpl in NF; unfold with_wslot in NF.
    - destruct (_ <? _) in NF; [|exfalso; eapply NF; reflexivity]. destruct (may_read _ _ _) eqn:R in NF; [|exfalso; eapply NF; reflexivity]. now apply Nat.eqb_eq.
    - destruct (_ <? _) in NF; [|exfalso; eapply NF; reflexivity]. destruct (may_write _ _ _) eqn:R in NF; [|exfalso; eapply NF; reflexivity].
      unfold may_write in R. apply andb_prop in R as [R _]. now apply Nat.eqb_eq.
  Qed.
  Lemma held_reads c t x i f k r : wexecution E ro l0 c0 m0 c -> wlookup t (w_run c) = Some x ->
    wc_prog x = Act (WrEnd i f) k -> r < wr (m_slots (w_mem c) i) -> v_r (w_view c t) i r = true.
  Proof.
    intros X Lk P L. assert (NF : forall f, wstep E c (WStep t 0) <> WFault f) by (intros g; eapply execution_safe; eauto; exact I).
    simpl in NF. unfold wstep_thread in NF. rewrite Lk, P in NF; simpl in NF; unfold with_wslot in NF.
    destruct (_ <? _) in NF; [|exfalso; eapply NF; reflexivity]. destruct (may_write _ _ _) eqn:R in NF; [|exfalso; eapply NF; reflexivity].
    unfold may_write in R. apply andb_prop in R as [_ R]. rewrite forallb_forall in R. apply R. apply in_seq. lia.
  Qed.

  Lemma changed id a k M tv y M' tv' x i : wexec E id a k M tv = WDone y M' tv' -> In x (wlog M a y) -> changes i x ->
    ww (m_slots M' i) = S (ww (m_slots M i)).
  Proof.
    intros X I C. destruct a; simpl in I; try contradiction; try (destruct I as [<-|[]]; simpl in C; try contradiction).
    - subst. simpl in X. unfold with_wslot in X. repeat (match type of X with context [match ?e with _ => _ end] => destruct e eqn:? end; try discriminate). injection X as <- <- <-.
      simpl. unfold upd. now rewrite Nat.eqb_refl.
    - simpl in X. unfold with_wslot in X. repeat (match type of X with context [match ?e with _ => _ end] => destruct e eqn:? end; try discriminate). injection X as <- <- <-.
      destruct I as [<-|[]]. simpl in C. apply andb_prop in Heqb1 as [_ Hn]. apply negb_true_iff, Nat.eqb_neq in Hn. simpl. unfold upd.
      destruct C as [->| ->]; [|rewrite Nat.eqb_refl; simpl; lia]. destruct (Nat.eqb_spec i j); [congruence|]. rewrite Nat.eqb_refl. reflexivity.
    - subst. simpl in X. unfold with_wslot in X. repeat (match type of X with context [match ?e with _ => _ end] => destruct e eqn:? end; try discriminate). injection X as <- <- <-.
      simpl. unfold upd. now rewrite Nat.eqb_refl.
  Qed.
  Lemma was_read id a k M tv y M' tv' v i : wexec E id a k M tv = WDone y M' tv' -> In (AcRead i v) (wlog M a y) ->
    wr (m_slots M' i) = S (wr (m_slots M i)).
  Proof.
    intros X I. destruct a; simpl in I; try contradiction; try (destruct I as [I|[]]; try discriminate).
    - injection I as -> <-. simpl in X. unfold with_wslot in X. repeat (match type of X with context [match ?e with _ => _ end] => destruct e eqn:? end; try discriminate). injection X as <- <- <-.
      simpl. unfold upd. now rewrite Nat.eqb_refl.
    - destruct (wv _) in I; [|contradiction]. destruct (wv _) in I; [|contradiction]. destruct I as [I|[]]. discriminate.
  Qed.
  Lemma acc_step q l q' j t d x : qstep E q l = QNext q' -> q_hist q' = q_hist q ++ [NAcc j t d x] ->
    exists fr rest k a y M tv p, stack t (q_run q) = fr :: rest /\ length rest = d /\ k_id fr = j /\ wexec E (k_num fr) a k (q_mem q) (q_view q (agent t d)) = WDone y M tv /\
      wlog (q_mem q) a y = [x] /\ q' = qafter t q fr rest p M tv [x].
  Proof.
    assert (No : q_hist q <> q_hist q ++ [NAcc j t d x]) by (intros e; apply (f_equal (@length _)) in e; rewrite app_length in e; simpl in e; lia).
    intros S Hh. destruct l as [u o from|u k|u a|u v| |n]; cbv beta iota zeta delta [qstep] in S.
    - destruct (turn _) eqn:U in S; [|discriminate]. destruct (qfetch _ _ _) as [z|]; [|discriminate]. apply qnext_inj in S; subst q'. cbn [q_hist] in Hh.
      apply app_inj_tail in Hh as [_ Hh]. discriminate.
    - destruct (stack u (q_run q)) as [|fr rest] eqn:St; [discriminate|].
      assert (Af : forall a kk y M tv, wexec E (k_num fr) a k (q_mem q) (q_view q (agent u (length rest))) = WDone y M tv -> q' = qafter u q fr rest (kk y) M tv (wlog (q_mem q) a y) ->
        exists fr rest k a y M tv p, stack t (q_run q) = fr :: rest /\ length rest = d /\ k_id fr = j /\ wexec E (k_num fr) a k (q_mem q) (q_view q (agent t d)) = WDone y M tv /\
          wlog (q_mem q) a y = [x] /\ q' = qafter t q fr rest p M tv [x]).
      { intros a kk y M tv Ex ->. unfold qafter in Hh. cbn [q_hist] in Hh. apply app_inv_head in Hh. destruct (wlog_short (q_mem q) a y) as [W|(z & W)]; rewrite W in Hh |- *; [discriminate|].
        injection Hh as <- <- <- <-. exists fr, rest, k, a, y, M, tv, (kk y). auto 10. }
      destruct (k_prog fr) as [v|m|a kk|a again kk|kk] eqn:P; [| | | |discriminate].
      + apply qnext_inj in S; subst q'. cbn [q_hist] in Hh. apply app_inj_tail in Hh as [_ Hh]. discriminate.
      + apply qnext_inj in S; subst q'. cbn [q_hist] in Hh. apply app_inj_tail in Hh as [_ Hh]. discriminate.
      + destruct (wexec _ _ _ _ _ _) as [y M tv|f|] eqn:Ex; [|discriminate ..]. apply qnext_inj in S. eapply Af; eauto.
      + destruct (wexec _ _ _ _ _ _) as [y M tv|f|] eqn:Ex; [|discriminate ..]. destruct (again y); apply qnext_inj in S; [subst q'; congruence|]. eapply Af; eauto.
    - destruct (stack u (q_run q)) as [|[n id o from [v|m|a' k|a' again k|k]] rest]; try discriminate. apply qnext_inj in S; subst q'. cbn [q_hist] in Hh. congruence.
    - destruct (turn _) in S; [|discriminate]. apply qnext_inj in S; subst q'. cbn [q_hist] in Hh. congruence.
    - destruct (q_run q); [|discriminate]. destruct (_ <=? _) in S; [|discriminate]. apply qnext_inj in S; subst q'. cbn [q_hist] in Hh. apply app_inj_tail in Hh as [_ Hh]. discriminate.
    - destruct (q_run q); [|discriminate]. destruct (reserve _ _ _ _); apply qnext_inj in S; subst q'; [|congruence]. cbn [q_hist] in Hh. apply app_inj_tail in Hh as [_ Hh]. discriminate.
  Qed.

  Theorem q_lent q id id1 o i k j t d x : qexecution q -> inside (q_hist q) id id1 o -> lends o (length (values_read (firstn id (q_hist q)) id1)) = Some i -> id < k ->
    rdone (firstn k (q_hist q)) id = false -> nth_error (q_hist q) k = Some (NAcc j t d x) ->
    ~ changes i x /\ (o = RElemUpdate i -> ~ on_elem i x).
  Proof.
    intros X Ins Le Lk D He. destruct (qprefix _ _ _ X He) as (q1 & l & q2 & X1 & P & S & H1 & H2).
    pose proof (qexecution_step _ _ _ X1 P S) as X2. destruct (acc_step _ _ _ _ _ _ _ S H2) as (fr & rest & kk & a & y & M & tv & p & St & Ld & Kj & Ex & Lg & Q2).
    assert (F1 : firstn id (q_hist q1) = firstn id (q_hist q)) by (rewrite H1, firstn_firstn, Nat.min_l by lia; reflexivity).
    assert (Lid : id < length (q_hist q1)). { rewrite H1, firstn_length. assert (k < length (q_hist q)) by (apply nth_error_Some; congruence). lia. }
    assert (F2 : firstn id (q_hist q2) = firstn id (q_hist q)).
    { rewrite H2, firstn_app. replace (id - length (q_hist q1)) with 0 by lia. simpl. now rewrite app_nil_r. }
    assert (I1 : inside (q_hist q1) id id1 o) by (rewrite H1; now apply inside_firstn).
    assert (I2 : inside (q_hist q2) id id1 o).
    { destruct Ins as (t1 & d1 & d2 & o2 & L & O & I). exists t1, d1, d2, o2. rewrite F2. split; [assumption|]. split; [assumption|].
      rewrite H2, nth_error_app1 by assumption. rewrite H1. rewrite firstn_nth; assumption. }
    assert (D1 : rdone (q_hist q1) id = false) by now rewrite H1.
    assert (D2 : rdone (q_hist q2) id = false) by (rewrite H2, rdone_snoc, D1; reflexivity).
    destruct (q_held q1 id id1 o i X1 I1 ltac:(now rewrite F1) D1) as (c & cur & t1 & d1 & z & Xc & Sc & N1 & L1 & W1 & P1).
    destruct (q_held q2 id id1 o i X2 I2 ltac:(now rewrite F2) D2) as (c' & cur' & t2 & d2 & z' & Xc' & Sc' & N2 & L2 & W2 & P2).
    assert (N2' : nth_error (q_hist q2) id1 = Some (NInv id1 t1 d1 o)) by (rewrite H2; now apply nth_old). rewrite N2 in N2'. injection N2' as -> ->.
    assert (Vw : w_view c' (agent t1 d1) = w_view c (agent t1 d1)).
    { rewrite (qs_view _ _ _ _ Sc), (qs_view _ _ _ _ Sc'), Q2. unfold qafter. cbn [q_view]. unfold upd. destruct (Nat.eqb_spec (agent t1 d1) (agent t (length rest))) as [e|]; [|reflexivity].
      apply agent_inj in e as [-> ->]. rewrite St in L1. simpl in L1. lia. }
    assert (Mc : w_mem c = q_mem q1) by apply Sc. assert (Mc' : w_mem c' = M) by (rewrite (qs_mem _ _ _ _ Sc'), Q2; reflexivity).
    assert (Cu : ~ changes i x).
    { intros Ch. pose proof (changed _ _ _ _ _ _ _ _ x i Ex ltac:(rewrite Lg; now left) Ch) as Up.
      assert (A1 : v_w (w_view c (agent t1 d1)) i = ww (m_slots (w_mem c) i)) by (apply (held_slot c _ z); auto; destruct P1 as [[? _]|?]; auto).
      assert (A2 : v_w (w_view c' (agent t1 d1)) i = ww (m_slots (w_mem c') i)) by (apply (held_slot c' _ z'); auto; destruct P2 as [[? _]|?]; auto).
      rewrite Mc in A1. rewrite Mc', Vw in A2. lia. }
    split; [exact Cu|]. intros -> On. destruct x; try contradiction.
    - simpl in On. subst i0. pose proof (was_read _ _ _ _ _ _ _ _ v i Ex ltac:(rewrite Lg; now left)) as Up.
      destruct P2 as [[_ No]|(f & k' & P2)]; [congruence|].
      pose proof (held_reads c' _ z' i f k' (wr (m_slots (q_mem q1) i)) Xc' W2 P2) as R. rewrite Mc' in R. specialize (R ltac:(lia)). rewrite Vw in R.
      destruct (execution_rok E ro _ _ _ _ Xc) as (_ & Rk & _). apply Rk in R. rewrite Mc in R. lia.
  Qed.
End Lent.

(** ** What calls of one thread know *)
Section Order.
  Context {V : Type} (E : env V) (ro : bool) (l0 : list V) (c0 m0 : nat).
  Implicit Types (q : qcfg V) (c : wcfg V).
  Notation qexecution := (qexecution E ro l0 c0 m0).

  (** [v] is what thread [t] knew at position [p] of the history: a call started or returned there. *)
  Definition knew q (t p : nat) (v : view) : Prop :=
    (exists d fr, frame_at (stack t (q_run q)) d = Some fr /\ k_id fr = p /\ k_from fr = v) \/
    exists x, In x (q_res q) /\ p_thread x = t /\ (p_id x = p /\ p_from x = v \/ p_end x = p /\ p_to x = v).
  Record ord q : Prop := MkOrd {
    od_holder : forall t p v, knew q t p v -> p < length (q_hist q) /\ vle v (q_view q (holder t q));
    od_order : forall t p v p' v', knew q t p v -> knew q t p' v' -> p < p' -> vle v v'
  }.
  Lemma access_views q t fr rest a kk k y M tv (pr : k_prog fr = RAct a kk \/ exists again, k_prog fr = RSpin a again kk /\ again y = false) : qexecution q -> stack t (q_run q) = fr :: rest ->
    wexec E (k_num fr) a k (q_mem q) (q_view q (agent t (length rest))) = WDone y M tv -> vle (q_view q (agent t (length rest))) tv.
  Proof.
    intros X St Ex. destruct (qflat E ro _ _ _ q (answered (q_ans q)) X (consistent_self _)) as (c & cur & Xc & _ & S).
    destruct (execution_SI E ro _ _ _ _ Xc) as (EOK & g & Si & B).
    pose proof (qs_run _ _ _ _ S t (length rest)) as Top. rewrite St, top_frame' in Top. destruct (wlookup _ _) as [x|] eqn:Lk; [|contradiction].
    destruct Top as [(Hid & _ & _ & Ha) _]. apply agr_inv in Ha. rewrite <- Hid, <- (qs_mem _ _ _ _ S), <- (qs_view _ _ _ _ S) in Ex.
    assert (St' : exists p, wstep E c (WStep (agent t (length rest)) k) = WNext (wafter (agent t (length rest)) c x p M tv)).
    { cbn [wstep]. unfold wstep_thread. rewrite Lk. destruct pr as [Pr|(again & Pr & Ag)]; rewrite Pr in Ha; destruct Ha as (k' & -> & _); rewrite Ex; [eauto|]. rewrite Ag. eauto. }
    destruct St' as (p & St'). pose proof (step_views E ro c g _ _ Si B St' ltac:(discriminate) (agent t (length rest))) as Le.
    unfold wafter in Le. cbn [w_view] in Le. unfold upd in Le at 1. rewrite Nat.eqb_refl in Le. now rewrite (qs_view _ _ _ _ S) in Le.
  Qed.

  Ltac proj := cbn [q_mem q_view q_run q_next q_res q_panics q_req q_hist q_ans].
  (** What a step adds: its thread knew there what it knew before the step, or more. *)
  Definition kstep q q' : Prop :=
    (forall t, vle (q_view q (holder t q)) (q_view q' (holder t q'))) /\ length (q_hist q) <= length (q_hist q') /\
    forall t p v, knew q' t p v -> knew q t p v \/
      p = length (q_hist q) /\ p < length (q_hist q') /\ vle (q_view q (holder t q)) v /\ vle v (q_view q' (holder t q')).
  Lemma ord_more q q' : (forall t p v, knew q' t p v -> knew q t p v) -> length (q_hist q) <= length (q_hist q') ->
    (forall t, vle (q_view q (holder t q)) (q_view q' (holder t q'))) -> kstep q q'.
  Proof. intros K L H. split; [assumption|]. split; [assumption|]. auto. Qed.
  Lemma ord_new q q' t v : (forall u p w, knew q' u p w -> knew q u p w \/ u = t /\ p = length (q_hist q) /\ w = v) -> length (q_hist q) < length (q_hist q') ->
    vle (q_view q (holder t q)) v -> vle v (q_view q' (holder t q')) -> (forall u, u <> t -> vle (q_view q (holder u q)) (q_view q' (holder u q'))) -> kstep q q'.
  Proof.
    intros K L H1 H2 H3. split; [|split; [lia|]].
    - intros u. destruct (Nat.eq_dec u t) as [->|]; [eapply vle_trans; eauto|auto].
    - intros u p w Hk. destruct (K _ _ _ Hk) as [Ho|(-> & -> & ->)]; auto.
  Qed.
  Lemma ord_kstep q q' : ord q -> kstep q q' -> ord q'.
  Proof.
    intros O (Up & L & K). constructor.
    - intros u p w Hk. destruct (K _ _ _ Hk) as [Ho|(-> & Lp & _ & H)]; [|auto]. destruct (od_holder _ O _ _ _ Ho) as [A B]. split; [lia|]. eapply vle_trans; eauto.
    - intros u p w p' w' Hk Hk' Lp. destruct (K _ _ _ Hk) as [Ho|(-> & _ & _ & H)]; destruct (K _ _ _ Hk') as [Ho'|(-> & _ & H' & _)].
      + eapply od_order; eauto.
      + destruct (od_holder _ O _ _ _ Ho) as [_ B]. eapply vle_trans; eauto.
      + destruct (od_holder _ O _ _ _ Ho') as [A _]. lia.
      + lia.
  Qed.
  Lemma upd_same {A} (f : nat -> A) a v : upd f a v a = v.
  Proof. unfold upd. now rewrite Nat.eqb_refl. Qed.
  Lemma upd_diff {A} (f : nat -> A) a v b : b <> a -> upd f a v b = f b.
  Proof. unfold upd. destruct (Nat.eqb_spec b a); congruence. Qed.
  Lemma vle_learn f a b u : vle (f u) (learn f a b u).
  Proof. unfold learn, upd. destruct (Nat.eqb_spec u a) as [->|]; [apply vle_joinl|apply vle_refl]. Qed.
  Lemma vle_enter f t d u : vle (f u) (enter f t d u).
  Proof. destruct d; [apply vle_refl|apply vle_learn]. Qed.
  Lemma vle_leave f t d u : vle (f u) (leave f t d u).
  Proof. destruct d; [apply vle_refl|apply vle_learn]. Qed.
  Lemma enter_top f t d : vle (f (agent t (pred d))) (enter f t d (agent t d)).
  Proof. destruct d as [|d]; [apply vle_refl|]. simpl. unfold learn. rewrite upd_same. apply vle_join_r. Qed.
  Lemma leave_top f t d : vle (f (agent t d)) (leave f t d (agent t (pred d))).
  Proof. destruct d as [|d]; [apply vle_refl|]. simpl. unfold learn. rewrite upd_same. apply vle_join_r. Qed.

  Lemma knew_put q q' t s : q_run q' = put t s (q_run q) -> q_res q' = q_res q ->
    (forall d fr, frame_at s d = Some fr -> exists d' fr', frame_at (stack t (q_run q)) d' = Some fr' /\ k_id fr' = k_id fr /\ k_from fr' = k_from fr) ->
    forall u p v, knew q' u p v -> knew q u p v.
  Proof.
    intros R Rs F u p v [(d & fr & Fr & Hi & Hv)|H]; [left|right; now rewrite Rs in H]. rewrite R, stack_put in Fr. destruct (Nat.eqb_spec u t) as [->|]; [|eauto].
    destruct (F _ _ Fr) as (d' & fr' & A & B & C). exists d', fr'. split; [assumption|]. split; congruence.
  Qed.
  Lemma holder_put q M f t s n rs ps rq h a u :
    holder u (QCfg M f (put t s (q_run q)) n rs ps rq h a) = if u =? t then agent t (pred (length s)) else holder u q.
  Proof. unfold holder. proj. rewrite stack_put. destruct (Nat.eqb_spec u t) as [->|]; reflexivity. Qed.
  Lemma agent_other t d t' d' : t <> t' -> agent t d <> agent t' d'.
  Proof. intros N e. apply agent_inj in e. tauto. Qed.
  Lemma leave_other f t d u d' : u <> t -> leave f t d (agent u d') = f (agent u d').
  Proof. intros N. destruct d; [reflexivity|]. simpl. unfold learn. apply upd_diff. now apply agent_other. Qed.

  Lemma kstep_stay q : kstep q q.
  Proof. apply ord_more; auto. intros. apply vle_refl. Qed.
  Lemma qstep_kstep q l q' : qexecution q -> qstep E q l = QNext q' -> l <> QClear -> kstep q q'.
  Proof.
    intros X S Nl. destruct l as [t o from|t k|t a|t u| |n]; cbv beta iota zeta delta [qstep] in S; [| | | |congruence|].
    - destruct (turn _) eqn:U in S; [|discriminate]. destruct (qfetch _ _ _) as [x|]; [|discriminate]. apply qnext_inj in S; subst q'. set (d := length (stack t (q_run q))).
      set (v := vjoin (enter (q_view q) t d (agent t d)) x). apply (ord_new q _ t v); proj.
      + intros u p w [(d' & fr & Fr & Hi & Hv)|H]; [|left; right; exact H]. cbn [q_run] in Fr. rewrite stack_put in Fr.
        destruct (Nat.eqb_spec u t) as [->|]; [|left; left; eauto]. rewrite frame_push in Fr. fold d in Fr. destruct (Nat.eqb_spec d' d); [|left; left; eauto].
        injection Fr as <-. right. auto.
      + rewrite app_length. simpl. lia.
      + unfold v. eapply vle_trans; [apply (enter_top (q_view q) t d)|apply vle_joinl].
      + rewrite holder_put. rewrite Nat.eqb_refl. cbn [length pred]. fold d. rewrite upd_same. apply vle_refl.
      + intros u N. rewrite holder_put. destruct (Nat.eqb_spec u t); [contradiction|]. unfold holder. rewrite upd_diff by now apply agent_other. apply vle_enter.
    - destruct (stack t (q_run q)) as [|fr rest] eqn:St; [discriminate|].
      assert (Ho : holder t q = agent t (length rest)) by (unfold holder; now rewrite St).
      assert (Fr0 : frame_at (stack t (q_run q)) (length rest) = Some fr) by (rewrite St; apply top_frame').
      assert (Below : forall d f, frame_at rest d = Some f -> frame_at (stack t (q_run q)) d = Some f).
      { intros d f F. rewrite St, frame_push. pose proof (frame_len _ _ _ F). destruct (Nat.eqb_spec d (length rest)); [lia|assumption]. }
      assert (Af : forall a kk y M tv, (k_prog fr = RAct a kk \/ exists again, k_prog fr = RSpin a again kk /\ again y = false) ->
                wexec E (k_num fr) a k (q_mem q) (q_view q (agent t (length rest))) = WDone y M tv -> kstep q (qafter t q fr rest (kk y) M tv (wlog (q_mem q) a y))).
      { intros a kk y M tv Pr Ex. pose proof (access_views q t fr rest a kk k y M tv Pr X St Ex) as Le.
        assert (Rn : q_run (qafter t q fr rest (kk y) M tv (wlog (q_mem q) a y)) = put t (QFrame (k_num fr) (k_id fr) (k_op fr) (k_from fr) (kk y) :: rest) (q_run q)) by reflexivity.
        apply ord_more.
        - eapply knew_put; [exact Rn|reflexivity|]. intros d f F. rewrite frame_push in F. destruct (Nat.eqb_spec d (length rest)) as [->|]; [|exists d, f; auto].
          injection F as <-. exists (length rest), fr. auto.
        - unfold qafter. proj. rewrite app_length. lia.
        - intros u. unfold qafter. rewrite holder_put. proj. destruct (Nat.eqb_spec u t) as [->|].
          + rewrite Ho. cbn [length pred]. rewrite upd_same. exact Le.
          + unfold holder. rewrite upd_diff by now apply agent_other. apply vle_refl. }
      destruct (k_prog fr) as [v|m|a kk|a again kk|kk] eqn:P; [| | | |discriminate].
      + apply qnext_inj in S; subst q'. apply (ord_new q _ t (q_view q (agent t (length rest)))); proj.
        * intros u p w [(d' & f & Fr & Hi & Hv)|(x & I & Ht & H)]; proj.
          -- left. left. cbn [q_run] in Fr. rewrite stack_put in Fr. destruct (Nat.eqb_spec u t) as [->|]; exists d', f; auto.
          -- cbn [q_res] in I. apply in_app_or in I as [I|[<-|[]]]; [left; right; eauto|]. cbn [p_thread p_id p_end p_from p_to] in *. subst u.
             destruct H as [[<- <-]|[<- <-]]; [|auto]. left. left. eauto.
        * rewrite app_length. simpl. lia.
        * rewrite Ho. apply vle_refl.
        * rewrite holder_put. rewrite Nat.eqb_refl. apply leave_top.
        * intros u N. rewrite holder_put. destruct (Nat.eqb_spec u t); [contradiction|]. apply vle_leave.
      + apply qnext_inj in S; subst q'. apply ord_more.
        * eapply (knew_put q _ t rest); proj; [reflexivity|reflexivity|]. intros d f F. exists d, f. auto.
        * proj. rewrite app_length. lia.
        * intros u. rewrite holder_put. proj. destruct (Nat.eqb_spec u t) as [->|]; [|apply vle_leave]. rewrite Ho. apply leave_top.
      + destruct (wexec _ _ _ _ _ _) as [y M tv|f|] eqn:Ex; [|discriminate ..]. apply qnext_inj in S; subst q'. eapply Af; eauto.
      + destruct (wexec _ _ _ _ _ _) as [y M tv|f|] eqn:Ex; [|discriminate ..]. destruct (again y) eqn:Ag; apply qnext_inj in S; subst q'; [apply kstep_stay|]. eapply Af; eauto.
    - destruct (stack t (q_run q)) as [|[n id o from [v|m|a' k|a' again k|k]] rest] eqn:St; try discriminate. apply qnext_inj in S; subst q'.
      apply ord_more.
      + eapply (knew_put q _ t (QFrame n id o from (k a) :: rest)); proj; [reflexivity|reflexivity|]. intros d f F. rewrite St. rewrite frame_push in F.
        destruct (Nat.eqb_spec d (length rest)) as [->|N].
        * injection F as <-. exists (length rest), (QFrame n id o from (RClo k)). split; [apply top_frame'|auto].
        * exists d, f. split; [|auto]. rewrite frame_push. destruct (Nat.eqb_spec d (length rest)); [contradiction|assumption].
      + proj. lia.
      + intros u. rewrite holder_put. proj. destruct (Nat.eqb_spec u t) as [->|]; [|apply vle_refl]. unfold holder. rewrite St. apply vle_refl.
    - destruct (turn _) in S; [|discriminate]. apply qnext_inj in S; subst q'. apply ord_more; proj; [intros ? ? ? H; exact H|lia|].
      intros u'. unfold holder. proj. apply vle_learn.
    - destruct (q_run q) eqn:Q; [|discriminate]. destruct (reserve _ _ _ _) as [m|]; apply qnext_inj in S; subst q'; [|apply kstep_stay].
      apply ord_more; proj.
      + intros t p v [(d & fr & F & _)|H]; [|right; exact H]. cbn [q_run stack] in F. unfold frame_at in F. destruct d; discriminate.
      + rewrite app_length. lia.
      + intros t. unfold holder. rewrite Q. proj. apply vle_refl.
  Qed.
  Lemma ord_step q l q' : qexecution q -> ord q -> qstep E q l = QNext q' -> ord q'.
  Proof.
    intros X O S. assert (D : l = QClear \/ l <> QClear) by (destruct l; auto; right; discriminate). destruct D as [->|D]; [|eapply ord_kstep, qstep_kstep; eauto].
    cbv beta iota zeta delta [qstep] in S. destruct (q_run q) eqn:Q; [|discriminate]. destruct (_ <=? _) in S; [|discriminate]. apply qnext_inj in S; subst q'.
    assert (No : forall M f n rs h a t p v, ~ knew (QCfg M f [] n [] rs 0 h a) t p v).
    { intros M f n rs h a t p v [(d & fr & F & _)|(x & I & _)]; [|contradiction]. cbn [q_run stack] in F. unfold frame_at in F. destruct d; discriminate. }
    constructor; intros; exfalso; eapply No; eassumption.
  Qed.
  Theorem execution_ord q : qexecution q -> ord q.
  Proof.
    intros (EO & CO & Le & Lt & Re). induction Re as [|q l q' Re IH P St].
    - assert (No : forall t p v, ~ knew (qstart l0 c0 m0) t p v).
      { intros t p v [(d & fr & F & _)|(x & I & _)]; [|contradiction]. cbn [qstart q_run stack] in F. unfold frame_at in F. destruct d; discriminate. }
      constructor; intros; exfalso; eapply No; eassumption.
    - eapply ord_step; [|exact IH|exact St]. repeat (split; [assumption|]). exact Re.
  Qed.

  (** What a thread knows it keeps until the next [clear]. *)
  Lemma calm_exec q q' : qexecution q -> qreach E (calm E ro) q q' -> qexecution q'.
  Proof. intros X R. induction R as [|r l r' R IH [P _] S]; [assumption|]. eapply qexecution_step; eauto. Qed.
  Lemma kept q q' t v n : qexecution q -> qreach E (calm E ro) q q' -> vle v (q_view q (holder t q)) -> length (q_hist q) <= n ->
    vle v (q_view q' (holder t q')) /\ forall p w, knew q' t p w -> n <= p -> vle v w.
  Proof.
    intros X R H L. assert (K : vle v (q_view q' (holder t q')) /\ length (q_hist q) <= length (q_hist q') /\ forall p w, knew q' t p w -> n <= p -> vle v w); [|tauto].
    induction R as [|r l r' R (IH1 & IH2 & IH3) [P Nl] S].
    - split; [assumption|]. split; [lia|]. intros p w Hk Lp. destruct (od_holder _ (execution_ord _ X) _ _ _ Hk). lia.
    - pose proof (calm_exec _ _ X R) as Xr. destruct (qstep_kstep _ _ _ Xr S Nl) as (Up & Le & K). split; [eapply vle_trans; eauto|]. split; [lia|].
      intros p w Hk Lp. destruct (K _ _ _ Hk) as [Ho|(_ & _ & A & _)]; [eauto|]. eapply vle_trans; eauto.
  Qed.

  (** Results are events of the history. *)
  Lemma result_events q x : qexecution q -> In x (q_res q) -> exists d,
    nth_error (q_hist q) (p_id x) = Some (NInv (p_id x) (p_thread x) d (p_op x)) /\ nth_error (q_hist q) (p_end x) = Some (NRet (p_id x) (p_thread x) d (p_ret x)).
  Proof.
    intros (EO & CO & Le & Lt & Re). revert x. induction Re as [|q l q' Re IH P St]; [contradiction|]. intros x I.
    destruct (qsimulation _ _ _ _ _ _ Re) as [R _].
    assert (Old : forall e, q_hist q' = q_hist q ++ e -> In x (q_res q) -> exists d,
      nth_error (q_hist q') (p_id x) = Some (NInv (p_id x) (p_thread x) d (p_op x)) /\ nth_error (q_hist q') (p_end x) = Some (NRet (p_id x) (p_thread x) d (p_ret x))).
    { intros e Hh I'. destruct (IH x I') as (d & A & B). exists d. rewrite Hh. split; now apply nth_old. }
    destruct l as [t o from|t k|t a|t u| |n]; cbv beta iota zeta delta [qstep] in St.
    - destruct (turn _) eqn:U in St; [|discriminate]. destruct (qfetch _ _ _); [|discriminate]. apply qnext_inj in St; subst q'. eapply Old; [reflexivity|exact I].
    - destruct (stack t (q_run q)) as [|fr rest] eqn:Sk; [discriminate|]. destruct (k_prog fr) as [v|m|a kk|a again kk|kk] eqn:Pr; [| | | |discriminate].
      + apply qnext_inj in St; subst q'. cbn [q_res] in I. apply in_app_or in I as [I|[<-|[]]]; [eapply Old; [reflexivity|exact I]|].
        exists (length rest). proj. cbn [p_id p_thread p_op p_end p_ret]. split; [apply nth_old, (qi_ids _ R); rewrite Sk; apply top_frame'|].
        rewrite nth_error_app2, Nat.sub_diag by lia. reflexivity.
      + apply qnext_inj in St; subst q'. eapply Old; [reflexivity|exact I].
      + destruct (wexec _ _ _ _ _ _); [|discriminate ..]. apply qnext_inj in St; subst q'. eapply Old; [reflexivity|exact I].
      + destruct (wexec _ _ _ _ _ _) as [y| |]; [|discriminate ..]. destruct (again y); apply qnext_inj in St; subst q'; [now apply IH|]. eapply Old; [reflexivity|exact I].
    - destruct (stack t (q_run q)) as [|[n id o from [v|m|a' k|a' again k|k]] rest]; try discriminate. apply qnext_inj in St; subst q'. now apply IH.
    - destruct (turn _) in St; [|discriminate]. apply qnext_inj in St; subst q'. now apply IH.
    - destruct (q_run q); [|discriminate]. destruct (_ <=? _) in St; [|discriminate]. apply qnext_inj in St; subst q'. contradiction.
    - destruct (q_run q); [|discriminate]. destruct (reserve _ _ _ _); apply qnext_inj in St; subst q'; [eapply Old; [reflexivity|exact I]|now apply IH].
  Qed.
End Order.
