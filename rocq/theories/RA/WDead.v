(** * Calls that never end, over several vectors and under release/acquire. *)

From Coq Require Import List Arith Bool Lia.
From Verif.Model Require Import Prog Mem Deps State Elem Vec Excl Machine Reentrant Network.
From Verif Require Import Client Spec.
From Verif.Logic Require Import Inv WP Post Hist Facts Lawful Reentry Nesting.
From Verif.RA Require Import Weak WTrace WReentrant WNetwork WInv WPath WHist WNested WLent WHolding WProject WFlow WStacks WWaits.
From Verif.Properties Require Reentrant WeakReentrant.
From Verif Require Import Nested.
Import ListNotations.
Local Arguments Nat.leb : simpl never.
Local Arguments Nat.ltb : simpl never.
Local Arguments Nat.eqb : simpl never.
Local Notation put := Reentrant.put.

Section Vector.
  Context {V : Type} (E : env V) (ro : bool) (l0 : list V) (c0 m0 : nat).
  Implicit Types (q : qcfg V).
  Notation qexecution := (qexecution E ro l0 c0 m0).

  (** ** A call that ended has accessed the values it uses *)
  Lemma eff_in (tr : list (acc V)) l x : eff tr = l -> In x l -> In x tr.
  Proof. intros <- H. apply filter_In in H. tauto. Qed.
  Lemma w_returned u (o : rop V) i v tr : uses o i -> wpost E (with_answers u o) v tr -> exists x, In x tr /\ on_elem i x.
  Proof.
    intros U P. assert (Sub := fun l x => eff_in tr l x). destruct o as [o|j|j| | | | | | | | | | | | | |]; simpl in U; try contradiction.
    - destruct o; simpl in U; try contradiction.
      + subst. simpl in P. match type of P with post_elem _ _ ?e _ _ => destruct e end; simpl in P.
        all: repeat match goal with P : exists _, _ |- _ => destruct P as (? & P) | P : _ /\ _ |- _ => destruct P as (? & P) end.
        all: eexists; (split; [eapply Sub; [eassumption|now left]|reflexivity]).
      + simpl in P. match type of P with wpost_slice _ _ ?e _ _ => destruct e end; try contradiction; simpl in P, U.
        * destruct P as [(_ & w & _ & P)|(L & _)]; [|lia]. destruct U as [_ ->]. eexists. split; [eapply Sub; [eassumption|now left]|reflexivity].
        * destruct P as (vs & Lv & _ & P). rewrite <- Lv in U. destruct (Reentrant.reads_at _ _ _ U) as (w & I). eexists. split; [eapply Sub; [eassumption|exact I]|reflexivity].
        * destruct P as (vs & Lv & _ & P). rewrite <- Lv in U. rewrite <- (map_length (fun o => (o, v0))) in U. destruct (Reentrant.writes_at _ _ _ U) as (w & w' & I).
          eexists. split; [eapply Sub; [eassumption|exact I]|reflexivity].
        * destruct P as (vs & Lv & _ & P). rewrite <- Lv in U. destruct (Reentrant.reads_at _ _ _ U) as (w & I). eexists. split; [eapply Sub; [eassumption|exact I]|reflexivity].
        * destruct P as (vs & Lv & _ & P). rewrite <- Lv in U. destruct (Reentrant.reads_at _ _ _ U) as (w & I). eexists. split; [eapply Sub; [eassumption|exact I]|reflexivity].
    - subst j. destruct P as (w & w' & _ & P & _). eexists. split; [eapply Sub; [eassumption|now left]|reflexivity].
    - subst j. destruct P as (w & _ & P & _). eexists. split; [eapply Sub; [eassumption|now left]|reflexivity].
  Qed.
  Lemma w_panicked u (o : rop V) i m tr : uses o i -> wpan (with_answers u o) m tr -> exists x, In x tr /\ on_elem i x.
  Proof.
    intros U P. assert (Sub := fun l x => eff_in tr l x). destruct o as [o|j|j| | | | | | | | | | | | | |]; simpl in U; try contradiction.
    - destruct o; simpl in U; try contradiction.
      + subst. simpl in P. match type of P with pan_elem _ ?e _ _ => destruct e end; simpl in P; try contradiction.
        all: repeat match goal with P : exists _, _ |- _ => destruct P as (? & P) | P : _ /\ _ |- _ => destruct P as (? & P) end.
        all: eexists; (split; [eapply Sub; [eassumption|now left]|reflexivity]).
      + simpl in P. match type of P with wpan_slice _ ?e _ _ => destruct e end; contradiction.
    - subst j. destruct P as (_ & w & P & _). eexists. split; [eapply Sub; [eassumption|now left]|reflexivity].
    - subst j. destruct P as (_ & w & P & _). eexists. split; [eapply Sub; [eassumption|now left]|reflexivity].
  Qed.
  Lemma w_must_use q id t d o i : qexecution q -> nth_error (q_hist q) id = Some (NInv id t d o) -> rdone (q_hist q) id = true -> uses o i ->
    exists k t' d' x, nth_error (q_hist q) k = Some (NAcc id t' d' x) /\ on_elem i x.
  Proof.
    intros X Hi D U. apply existsb_exists in D as (e & Ie & Re). apply In_nth_error in Ie as (n & Hn).
    destruct (WeakReentrant.C47_flat E ro l0 c0 m0 q X) as (c & Hc & _). destruct (whistory_TI _ _ _ _ _ _ _ Hc) as (cur & T). pose proof (ti_law _ _ _ _ _ _ T) as L.
    unfold qflatten in *. set (w := answered (q_ans q)) in *. set (hf := map (flat_event w) (q_hist q)) in *.
    assert (Fi : nth_error hf id = Some (EInv id (agent t d) (with_answers (w id) o))) by (unfold hf; rewrite nth_error_map, Hi; reflexivity).
    assert (Fn : nth_error hf n = Some (flat_event w e)) by (unfold hf; rewrite nth_error_map, Hn; reflexivity).
    assert (Ee : is_end id (flat_event w e) = true) by (destruct e; try discriminate; exact Re).
    assert (Y : exists x, In x (accs id (firstn n hf)) /\ on_elem i x).
    { destruct (l_end l0 m0 hf L n id _ Fn Ee) as (t' & o' & _ & A & _ & _ & [(v & Q)|(m & Q)]); rewrite Fi in A; injection A as <- <-; rewrite Q in Fn.
      - eapply w_returned; [exact U|]. apply (ti_ret _ _ _ _ _ _ T). eexists. split; [exact Fi|exact Fn].
      - eapply w_panicked; [exact U|]. apply (ti_pan _ _ _ _ _ _ T). eexists. split; [exact Fi|exact Fn]. }
    destruct Y as (x & I & On). destruct (l_in_accs l0 m0 hf L id n x _ I Fn Ee) as (k & tt' & Lk & Hk & _). unfold hf in Hk. rewrite nth_error_map in Hk.
    destruct (nth_error (q_hist q) k) as [e'|] eqn:Q; [|discriminate]. destruct e'; try discriminate. injection Hk as -> <- ->. eauto 10.
  Qed.
End Vector.

Section Lender.
  Context {V : Type} (E : env V) (l0 : list V) (c0 m0 : nat).
  Implicit Types (q : qcfg V).
  Notation qexecution := (qexecution E false l0 c0 m0).

  (** ** Nobody accesses an element that is lent to a closure *)
  Lemma w_lent_frame q l q' j t d x t1 d1 fr k i : qexecution q -> frame_at (stack t1 (q_run q)) d1 = Some fr -> k_prog fr = RClo k ->
    lends (k_op fr) (length (values_read (q_hist q) (k_id fr))) = Some i ->
    qstep E q l = QNext q' -> q_hist q' = q_hist q ++ [NAcc j t d x] -> ~ on_elem i x.
  Proof.
    intros X F Fp Le S Hh On. destruct (qflat E false l0 c0 m0 q _ X (consistent_self _)) as (c & cur & Xc & _ & Sm).
    destruct (gnest_of E _ (qexec_gexec _ _ _ _ _ _ X)) as [_ N].
    pose proof (qs_run _ _ _ _ Sm t1 d1) as M. rewrite F in M. destruct (wlookup (agent t1 d1) (w_run c)) as [x1|] eqn:Lk; [|contradiction].
    destruct M as ((_ & _ & _ & A) & _). rewrite Fp in A. apply agr_inv in A. pose proof (ne_clo _ N _ _ _ (frame_rof _ _ _ _ F)) as C. cbn [frame_of f_op f_prog f_id rof rhist] in C. rewrite Fp in C.
    destruct C as [C _]. specialize (C i Le). set (a := dropw _ _ 0) in A. specialize (C a). destruct (k a) as [| |b k'| |]; try contradiction.
    apply agr_inv in A as (k'' & A & _).
    assert (P : (exists k, wc_prog x1 = Act (RdEnd i) k) \/ exists f k, wc_prog x1 = Act (WrEnd i f) k) by (destruct b; try contradiction; simpl in C; subst; eauto).
    clear b k' k'' A C.
    assert (Fin : forall fr' rest k' a' y M tv (kk : res a' -> _), stack t (q_run q) = fr' :: rest -> wexec E (k_num fr') a' k' (q_mem q) (q_view q (agent t (length rest))) = WDone y M tv ->
                    wlog (q_mem q) a' y = [x] -> k_prog fr' = RAct a' kk \/ (exists ag, k_prog fr' = RSpin a' ag kk /\ ag y = false) -> False).
    { intros fr' rest k' a' y M tv kk St Ex Lg Pr. pose proof (qs_run _ _ _ _ Sm t (length rest)) as M'. rewrite St, top_frame' in M'. destruct (wlookup (agent t (length rest)) (w_run c)) as [x2|] eqn:Lk2; [|contradiction].
      destruct M' as ((Hid & _ & _ & A) & _). pose proof Ex as Ex0. rewrite <- Hid, <- (qs_view _ _ _ _ Sm), <- (qs_mem _ _ _ _ Sm) in Ex.
      assert (Sc : exists c', wstep E c (WStep (agent t (length rest)) k') = WNext c' /\ w_mem c' = M).
      { cbn [wstep]. unfold wstep_thread. rewrite Lk2. destruct Pr as [Pr|(ag & Pr & Ag)]; rewrite Pr in A; apply agr_inv in A as (k3 & A & _); rewrite A, Ex; [|rewrite Ag]; eexists; split; reflexivity. }
      destruct Sc as (c' & Sc & Mc).
      destruct (holder_alone E l0 c0 m0 c _ x1 i (WStep (agent t (length rest)) k') c' Xc Lk P Logic.I Sc) as [Hw Hr].
      { intros k2 [= Q _]. apply agent_inj in Q as [<- <-]. rewrite St, top_frame' in F. injection F as ->. destruct Pr as [Pr|(ag & Pr & _)]; congruence. }
      rewrite Mc, (qs_mem _ _ _ _ Sm) in Hw, Hr.
      assert (Cu : ~ changes i x) by (intros Ch; pose proof (changed E _ _ _ _ _ _ _ _ x i Ex0 ltac:(rewrite Lg; now left) Ch); lia).
      destruct x; try contradiction. simpl in On. subst i0. pose proof (was_read E _ _ _ _ _ _ _ _ v i Ex0 ltac:(rewrite Lg; now left)). lia. }
    assert (No : q_hist q <> q_hist q ++ [NAcc j t d x]) by (intros e; apply (f_equal (@length _)) in e; rewrite app_length in e; simpl in e; lia).
    destruct l as [u o from|u k0|u a0|u v| |n]; cbv beta iota zeta delta [qstep] in S.
    - destruct (turn _) eqn:U in S; [|discriminate]. destruct (qfetch _ _ _) as [z|]; [|discriminate]. apply qnext_inj in S; subst q'. cbn [q_hist] in Hh.
      apply app_inj_tail in Hh as [_ Hh]. discriminate.
    - destruct (stack u (q_run q)) as [|fr' rest] eqn:St; [discriminate|].
      assert (Af : forall a' (kk : res a' -> _) y M tv, wexec E (k_num fr') a' k0 (q_mem q) (q_view q (agent u (length rest))) = WDone y M tv -> q' = qafter u q fr' rest (kk y) M tv (wlog (q_mem q) a' y) ->
        k_prog fr' = RAct a' kk \/ (exists ag, k_prog fr' = RSpin a' ag kk /\ ag y = false) -> False).
      { intros a' kk y M tv Ex -> Pr. unfold qafter in Hh. cbn [q_hist] in Hh. apply app_inv_head in Hh. destruct (wlog_short (q_mem q) a' y) as [W|(z & W)]; rewrite W in Hh; [discriminate|].
        injection Hh as _ -> _ ->. eapply Fin; eauto. }
      destruct (k_prog fr') as [v|m|a' kk|a' again kk|kk] eqn:Pr; [| | | |discriminate].
      + apply qnext_inj in S; subst q'. cbn [q_hist] in Hh. apply app_inj_tail in Hh as [_ Hh]. discriminate.
      + apply qnext_inj in S; subst q'. cbn [q_hist] in Hh. apply app_inj_tail in Hh as [_ Hh]. discriminate.
      + destruct (wexec _ _ _ _ _ _) as [y M tv|f|] eqn:Ex; [|discriminate ..]. apply qnext_inj in S. eapply Af; eauto.
      + destruct (wexec _ _ _ _ _ _) as [y M tv|f|] eqn:Ex; [|discriminate ..]. destruct (again y) eqn:Ag; apply qnext_inj in S; [subst q'; congruence|]. eapply Af; eauto.
    - destruct (stack u (q_run q)) as [|[n id o from [v|m|a' k'|a' again k'|k']] rest]; try discriminate. apply qnext_inj in S; subst q'. cbn [q_hist] in Hh. congruence.
    - destruct (turn _) in S; [|discriminate]. apply qnext_inj in S; subst q'. cbn [q_hist] in Hh. congruence.
    - destruct (q_run q); [|discriminate]. destruct (_ <=? _) in S; [|discriminate]. apply qnext_inj in S; subst q'. cbn [q_hist] in Hh. apply app_inj_tail in Hh as [_ Hh]. discriminate.
    - destruct (q_run q); [|discriminate]. destruct (reserve _ _ _ _); apply qnext_inj in S; subst q'; [|congruence]. cbn [q_hist] in Hh. apply app_inj_tail in Hh as [_ Hh]. discriminate.
  Qed.
  Lemma w_exclusive q id i k j t d x : qexecution q -> has_lent (q_hist q) id i -> id < k -> rdone (firstn k (q_hist q)) id = false ->
    nth_error (q_hist q) k = Some (NAcc j t d x) -> ~ on_elem i x.
  Proof.
    intros X Hl Lk D He. destruct (qprefix _ _ _ _ _ _ _ _ X He) as (q1 & l & q2 & X1 & P & S & H1 & H2).
    apply (lent_firstn _ _ _ _ Lk) in Hl. rewrite <- H1 in Hl, D. destruct Hl as (id1 & o & Ins & Le).
    pose proof (qexec_gexec _ _ _ _ _ _ X1) as G. change (q_hist q1) with (rhist (rof q1)) in Ins, Le, D.
    pose proof (g_outer_open E _ _ _ _ G Ins D) as D1. destruct (g_both_open E _ _ _ _ G Ins D D1) as (t1 & d1 & fr & k1 & F & Fi & Fo & Fp & _).
    rewrite <- (g_outer_values E _ _ _ _ G Ins D) in Le.
    assert (Ff : exists fq, frame_at (stack t1 (q_run q1)) d1 = Some fq /\ fr = frame_of fq).
    { cbn [rof rrun] in F. rewrite stack_framed in F. unfold frame_at in F |- *. rewrite <- map_rev, nth_error_map in F.
      destruct (nth_error (rev (stack t1 (q_run q1))) d1) as [fq|]; [|discriminate]. injection F as <-. eauto. }
    destruct Ff as (fq & Fq & ->). cbn [frame_of f_id f_op f_prog] in Fi, Fo, Fp.
    eapply (w_lent_frame q1 l q2); [exact X1|exact Fq|exact Fp|rewrite Fo, Fi; exact Le|exact S|exact H2].
  Qed.
  (** A call makes its accesses after its start and before its end. *)
  Lemma w_within q id k t d x : qexecution q -> nth_error (q_hist q) k = Some (NAcc id t d x) -> id < k /\ rdone (firstn k (q_hist q)) id = false.
  Proof.
    intros X He. destruct (qprefix _ _ _ _ _ _ _ _ X He) as (q1 & l & q2 & X1 & P & S & H1 & H2).
    assert (Lk : length (q_hist q1) = k). { rewrite H1, firstn_length. assert (k < length (q_hist q)) by (apply nth_error_Some; congruence). lia. }
    destruct (acc_step _ _ _ _ _ _ _ _ S H2) as (fr & rest & kk & a & y & M & tv & p & St & Ld & Kj & _).
    assert (F : frame_at (stack t (q_run q1)) (length rest) = Some fr) by (rewrite St; apply top_frame').
    destruct (gnest_of E _ (qexec_gexec _ _ _ _ _ _ X1)) as [Ri N]. apply frame_rof in F. pose proof (ne_open _ N _ _ _ F) as O. pose proof (ri_ids _ Ri _ _ _ F) as I.
    cbn [frame_of f_id f_op rof rhist] in O, I. rewrite Kj in O, I. rewrite <- H1. split; [|exact O]. rewrite <- Lk. apply nth_error_Some. congruence.
  Qed.
End Lender.

Section Vectors.
  Context {V : Type} (E : nat -> env V) (l0 : nat -> list V) (c0 m0 : nat -> nat).
  Implicit Types (c : xcfg V).
  Notation ro := (fun _ : nat => false).
  Notation xexec := (xexecution E ro l0 c0 m0).

  Lemma x_hist c l c' w : xstep E c l = XNext c' -> q_hist (xvecs c' w) = q_hist (xvecs c w) \/
    exists l', l = XOn w l' /\ exists q e, qstep (E w) (xvecs c w) l' = QNext q /\ xvecs c' w = q /\ q_hist q = q_hist (xvecs c w) ++ [e].
  Proof.
    intros S. destruct l as [v l|t0 u]; cbn [xstep] in S.
    2:{ destruct (xturn c t0); [|discriminate]. injection S as <-. now left. }
    destruct (xmay c v l) eqn:May; [|discriminate]. destruct (qstep (E v) (xvecs c v) l) as [q|f|] eqn:St; try discriminate. injection S as <-. cbn [xvecs].
    destruct (Nat.eq_dec w v) as [->|N]; [|left; now apply after_hist]. rewrite after_own.
    destruct (qhist_grows (E v) _ _ _ St) as [Q|(e & Q)]; [now left|]. right. exists l. split; [reflexivity|]. exists q, e. auto.
  Qed.
  Lemma x_lent_frame c l c' w j t d x t1 d1 fr k i : xexec c -> frame_at (stack t1 (q_run (xvecs c w))) d1 = Some fr -> k_prog fr = RClo k ->
    lends (k_op fr) (length (values_read (q_hist (xvecs c w)) (k_id fr))) = Some i ->
    xstep E c l = XNext c' -> q_hist (xvecs c' w) = q_hist (xvecs c w) ++ [NAcc j t d x] -> ~ on_elem i x.
  Proof.
    intros X F Fp Le S Hh. destruct (x_hist c l c' w S) as [Q|(l' & -> & q & e & Sq & Eq & _)]; [rewrite Q in Hh; apply (f_equal (@length _)) in Hh; rewrite app_length in Hh; simpl in Hh; lia|].
    assert (Ns : forall t u, l' <> QSync t u) by (intros t0 u ->; cbn [xstep xmay] in S; discriminate).
    assert (Q : exists f f', qexecution (E w) false (l0 w) (c0 w) (m0 w) (set_views (xvecs c w) f) /\ qstep (E w) (set_views (xvecs c w) f) l' = QNext (set_views q f')).
    { destruct (x_proj E ro l0 c0 m0 c (match by_thread l' with Some t => t | None => 0 end) w X) as (f & Xf & Ag & _).
      pose proof (views_step (E w) (xvecs c w) f l' (fun t By => ltac:(rewrite By in Ag; exact Ag)) Ns) as Vs. rewrite Sq in Vs. destruct Vs as (f' & Sf & _). eauto. }
    destruct Q as (f & f' & Xf & Sf). eapply (w_lent_frame (E w)); [exact Xf|exact F|exact Fp|exact Le|exact Sf|]. cbn [set_views q_hist]. rewrite <- Eq. exact Hh.
  Qed.
  Lemma x_must_use c w id t d o i : xexec c -> nth_error (q_hist (xvecs c w)) id = Some (NInv id t d o) -> rdone (q_hist (xvecs c w)) id = true -> uses o i ->
    exists k t' d' x, nth_error (q_hist (xvecs c w)) k = Some (NAcc id t' d' x) /\ on_elem i x.
  Proof.
    intros X Hi D U. destruct (x_proj E ro l0 c0 m0 c 0 w X) as (f & Xf & _). exact (w_must_use (E w) false (l0 w) (c0 w) (m0 w) _ id t d o i Xf Hi D U).
  Qed.
  (** the call around an unfinished call waits for its closure *)
  Lemma x_waiting c t x rest w id : xexec c -> xopen c t = x :: rest -> In (w, id) rest -> exists d fr k, frame_at (stack t (q_run (xvecs c w))) d = Some fr /\ k_id fr = id /\ k_prog fr = RClo k.
  Proof.
    intros X Op I. pose proof (x_wired E ro l0 c0 m0 c X t w) as Wt. pose proof (xlined E ro l0 c0 m0 c X) as Li. rewrite Op, owns_cons in Wt. apply owns_in in I. unfold qids in Wt.
    assert (K : exists fr k, In fr (stack t (q_run (xvecs c w))) /\ k_id fr = id /\ k_prog fr = RClo k).
    { destruct (Nat.eqb_spec (fst x) w) as [e|N].
      - destruct (stack t (q_run (xvecs c w))) as [|f0 s] eqn:St; [discriminate|]. cbn [map] in Wt. injection Wt as _ Wt. rewrite <- Wt in I. apply in_map_iff in I as (fr & Fi & I).
        destruct (li_susp _ Li w t fr) as (k & P); [rewrite St; exact I|]. exists fr, k. split; [now right|auto].
      - rewrite <- Wt in I. apply in_map_iff in I as (fr & Fi & I).
        assert (U : turn (stack t (q_run (xvecs c w))) = true) by (apply (li_turn _ Li); unfold xtop; rewrite Op; destruct x; now apply Nat.eqb_neq).
        destruct (stack t (q_run (xvecs c w))) as [|f0 s] eqn:St; [destruct I|]. destruct I as [->|I].
        + unfold turn in U. destruct (k_prog fr) as [| | | |k] eqn:P; try discriminate. exists fr, k. split; [now left|auto].
        + destruct (li_susp _ Li w t fr) as (k & P); [rewrite St; exact I|]. exists fr, k. split; [now right|auto]. }
    destruct K as (fr & k & I' & Fi & P). apply in_rev, In_nth_error in I' as (d & F). exists d, fr, k. auto.
  Qed.
  Lemma x_within_step c l c' w2 id2 w1 id1 : xexec c -> xexec c' -> xstep E c l = XNext c' -> xwithin c w2 id2 w1 id1 -> rdone (q_hist (xvecs c' w2)) id2 = false -> xwithin c' w2 id2 w1 id1.
  Proof.
    intros X X' S (t & h & rest & Cl & I) D.
    assert (In2 : In (w2, id2) (xopen c' t)).
    { assert (I2 : In (w2, id2) (xopen c t)) by (rewrite Cl; apply in_or_app; right; now left). apply (x_calls E ro l0 c0 m0 c t w2 id2 X) in I2 as (d & o & O1 & _).
      apply (x_calls E ro l0 c0 m0 c' t w2 id2 X'). exists d, o. split; [|exact D]. destruct (x_hist c l c' w2 S) as [->|(l' & _ & q & e & _ & -> & ->)]; [exact O1|now apply nth_old]. }
    assert (Same : xopen c' t = xopen c t -> xwithin c' w2 id2 w1 id1) by (intros Q; exists t, h, rest; now rewrite Q).
    destruct l as [v l|t0 u]; cbn [xstep] in S.
    2:{ destruct (xturn c t0); [|discriminate]. injection S as <-. now apply Same. }
    destruct (xmay c v l) eqn:May; [|discriminate]. destruct (qstep (E v) (xvecs c v) l) as [q|f|] eqn:St; try discriminate. injection S as <-. cbn [xopen] in *.
    destruct l as [t' o' f'|t' k'|t' a'|t' u'| |n']; cbn [xcalls] in *; try (now apply Same).
    - unfold set_at in *. destruct (Nat.eqb_spec t t') as [<-|N]; [|now apply Same]. exists t, ((v, length (q_hist (xvecs c v))) :: h), rest. cbn [xopen xcalls]. unfold set_at. rewrite Nat.eqb_refl, Cl. auto.
    - destruct (_ <? _) eqn:Lt; [|now apply Same]. unfold set_at in *. destruct (Nat.eqb_spec t t') as [<-|N]; [|now apply Same].
      destruct h as [|y h].
      + exfalso. rewrite Cl in In2. cbn [tl app] in In2. pose proof (ids_nodup E ro l0 c0 m0 c t w2 X) as Nd. rewrite (x_wired E ro l0 c0 m0 c X t w2), Cl in Nd. cbn [app] in Nd. rewrite owns_cons in Nd. cbn [fst snd] in Nd.
        rewrite Nat.eqb_refl in Nd. apply NoDup_cons_iff in Nd as [Nd _]. apply Nd. now apply owns_in.
      + exists t, h, rest. cbn [xopen xcalls]. unfold set_at. rewrite Nat.eqb_refl, Cl. auto.
  Qed.
End Vectors.
