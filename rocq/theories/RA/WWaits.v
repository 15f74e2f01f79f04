(** * What calls made inside closures wait for, under release/acquire. *)

From Coq Require Import List Arith Bool Lia.
From Verif.Model Require Import Prog Mem Deps State Elem Vec Excl Machine Reentrant.
From Verif Require Import Client Spec Nested.
From Verif.Logic Require Import Shape Clients Locks Reentry Nesting Inner.
From Verif.RA Require Import Weak WTrace WFair WReentrant WInv WStep WSlots WSpecs WOps WSound WLocks WHist WReads WLive WNested WLent.
Import ListNotations.
Local Arguments Nat.leb : simpl never.
Local Arguments Nat.ltb : simpl never.
Local Arguments Nat.eqb : simpl never.
Local Notation latest := Weak.latest.
Local Notation inside := Nested.inside.
Local Notation matches := qmatches.

(** ** Vocabulary: as in [RA/WFair.v], for the machine with calls inside closures *)
Section Words.
  Context {V : Type} (E : env V).
  Implicit Types (q : qcfg V).

  (** The newest message that the next access of the innermost call of thread [t] can read. *)
  Definition qfront q (t : nat) : nat :=
    match stack t (q_run q) with
    | fr :: _ => match k_prog fr with
                 | RAct a _ | RSpin a _ _ => newest a (q_mem q)
                 | _ => 0
                 end
    | [] => 0
    end.
  (** The next step of that call is a round of a busy-wait, although it reads the newest message. *)
  Definition qwaits q (t : nat) : Prop := qstep E q (QStep t (qfront q t)) = QNext q.
  (** The call with number [num] reserved the [n] positions from [b] on. *)
  Definition qreserved q (num b n : nat) : Prop :=
    exists k m m', nth_error (m_resv (q_mem q)) k = Some m /\ nth_error (m_resv (q_mem q)) (S k) = Some m' /\
      mval m = b /\ mval m' = b + n /\ mby m' = num.
  (** The newest state of the element at position [i], and the newest capacity. *)
  Definition qstate q (i : nat) : st :=
    match nth_error (ws (m_slots (q_mem q) i)) (last_ts (ws (m_slots (q_mem q) i))) with Some m => mval m | None => NONE end.
  Definition qcapacity q : nat := latest (m_cap (q_mem q)).
  (** [fr] is an unfinished call of thread [t] with [d] suspended calls below it. *)
  Definition runs q (t d : nat) (fr : qframe V) : Prop := frame_at (stack t (q_run q)) d = Some fr.
  (** It is the innermost call of its thread. *)
  Definition on_top q (t d : nat) : Prop := length (stack t (q_run q)) = S d.
  (** ... and it is not running a closure. *)
  Definition busy q (t d : nat) : Prop := on_top q t d /\ turn (stack t (q_run q)) = false.
  (** If it waits as well, it is a [swap]: the only method that waits for an element while it holds another one. *)
  Definition lively q (t d : nat) (fr : qframe V) : Prop := on_top q t d -> qwaits q t -> exists o, k_op fr = RPlain o /\ swaps o = true /\ hspin E = true.
End Words.

(** ** Growth calls at a closure: the panic of the closure is all that is left *)
Section Unwinding.
  Context {V : Type} (E : env V).
  Fixpoint gclo {R} (p : rprog V R) : Prop :=
    match p with
    | RRet _ | RPan _ => True
    | RAct _ k | RSpin _ _ k => forall x, gclo (k x)
    | RClo k => k None = RPan PClosure /\ forall a, gclo (k a)
    end.
  Lemma gclo_lift {R} (p : prog V R) : gclo (lift p).
  Proof. induction p; simpl; auto. Qed.
  Lemma gclo_bind {R S} (p : rprog V R) (f : R -> rprog V S) : gclo p -> (forall x, gclo (f x)) -> gclo (rbind p f).
  Proof.
    intros H F. induction p as [x|m|a k IH|a g k IH|k IH]; simpl in *; auto. destruct H as [H1 H2]. split; [rewrite H1; reflexivity|]. intros a. apply IH. apply H2.
  Qed.
  Lemma gclo_items n : forall i, gclo (r_write_items (V := V) i n).
  Proof.
    induction n as [|n IH]; intros i; cbn [r_write_items]; [exact Logic.I|]. split; [reflexivity|]. intros [[v|?| |?|? ?]|]; try exact Logic.I.
    apply gclo_bind; [apply gclo_lift|]. intros _. apply IH.
  Qed.
  Lemma gclo_op o : rgrows o = true -> gclo (rop_prog E o).
  Proof.
    intros G. destruct o; try discriminate G; cbn [rop_prog].
    - apply gclo_lift.
    - unfold rmap, r_push_for_idx. apply gclo_bind; [|intros; exact Logic.I]. apply gclo_bind; [apply gclo_lift|]. intros b. split; [reflexivity|]. intros a.
      apply gclo_bind; [apply gclo_lift|]. intros v. apply gclo_bind; [apply gclo_lift|]. intros _. apply gclo_bind; [apply gclo_lift|]. intros _. exact Logic.I.
    - unfold rmap, r_extend_n_items. apply gclo_bind; [|intros; exact Logic.I]. apply gclo_bind; [apply gclo_lift|]. intros b. apply gclo_bind; [apply gclo_lift|]. intros _.
      apply gclo_bind; [apply gclo_items|]. intros _. exact Logic.I.
    - unfold rmap, r_extend_for_idx. apply gclo_bind; [|intros; exact Logic.I]. apply gclo_bind; [apply gclo_lift|]. intros b. apply gclo_bind; [apply gclo_lift|]. intros _.
      split; [reflexivity|]. intros [[?|?| |k|? ?]|]; try exact Logic.I. destruct (k =? n); [|exact Logic.I]. apply gclo_bind; [apply gclo_items|]. intros _. exact Logic.I.
    - unfold rmap, r_extend_n_items. apply gclo_bind; [|intros; exact Logic.I]. apply gclo_bind; [apply gclo_lift|]. intros b. apply gclo_bind; [apply gclo_lift|]. intros _.
      apply gclo_bind; [apply gclo_items|]. intros _. exact Logic.I.
  Qed.
  Lemma g_gclo r t d fr : gexec E r -> frame_at (stack t (rrun r)) d = Some fr -> rgrows (f_op fr) = true -> gclo (f_prog fr).
  Proof.
    intros X F. refine (g_hered E (fun o p => rgrows o = true -> gclo p) r _ _ _ _ X t d fr F); clear.
    - intros o. apply gclo_op.
    - intros o a k y H G. exact (H G y).
    - intros o a g k y H G. exact (H G y).
    - intros o k a H G. exact (proj2 (H G) a).
  Qed.
  Lemma g_plain r t d fr o : gexec E r -> frame_at (stack t (rrun r)) d = Some fr -> f_op fr = RPlain o -> noclo (f_prog fr).
  Proof.
    intros X F. revert o. refine (g_hered E (fun o p => forall o1, o = RPlain o1 -> noclo p) r _ _ _ _ X t d fr F); clear.
    - intros o o1 ->. apply noclo_lift.
    - intros o a k y H o1 e. exact (H o1 e y).
    - intros o a g k y H o1 e. exact (H o1 e y).
    - intros o k a H o1 e. destruct (H o1 e).
  Qed.
  Lemma g_tidy r t d fr : gexec E r -> frame_at (stack t (rrun r)) d = Some fr -> rgrows (f_op fr) = false ->
    exists n, tidy (lends (f_op fr)) (fun _ => True) (fun _ _ => True) n (f_prog fr).
  Proof.
    intros X F. refine (g_hered E (fun o p => rgrows o = false -> exists n, tidy (lends o) (fun _ => True) (fun _ _ => True) n p) r _ _ _ _ X t d fr F); clear.
    - intros o G. exists 0. now apply (tidy_op E).
    - intros o a k y H G. destruct (H G) as (n & T). eexists. apply (T y).
    - intros o a g k y H G. destruct (H G) as (n & T). eexists. apply (T y).
    - intros o k a H G. destruct (H G) as (n & T). exists n. apply (T a).
  Qed.
  Lemma lends_none (o : rop V) n n' : lends o n = None -> lends o n' = None.
  Proof. destruct o; simpl; auto; discriminate. Qed.
  Lemma g_order r t d1 fr1 d2 fr2 : gexec E r -> frame_at (stack t (rrun r)) d1 = Some fr1 -> frame_at (stack t (rrun r)) d2 = Some fr2 -> d1 < d2 ->
    inside (rhist r) (f_id fr2) (f_id fr1) (f_op fr1).
  Proof.
    intros X F1 F2 L. destruct (gnest_of E _ X) as [R N].
    pose proof (ri_ids _ R _ _ _ F1) as I1. pose proof (ri_ids _ R _ _ _ F2) as I2. pose proof (ne_open _ N _ _ _ F1) as D1. pose proof (ne_open _ N _ _ _ F2) as D2.
    assert (Lt : f_id fr1 < f_id fr2).
    { destruct (Nat.lt_trichotomy (f_id fr1) (f_id fr2)) as [?|[e|Q]]; [assumption| |]; exfalso.
      - rewrite e, I2 in I1. injection I1 as e'. lia.
      - destruct (gprefix E _ _ _ X I1) as (r1 & r2 & X1 & S & H1 & H2). destruct (gnest_of E _ X1) as [_ N1].
        assert (O2 : ropen (rhist r1) (f_id fr2) t d2 (f_op fr2)).
        { split; [rewrite H1, firstn_nth; assumption|]. rewrite H1. apply (rdone_firstn _ _ (length (rhist r))); [|now rewrite firstn_all].
          apply Nat.lt_le_incl, nth_error_Some. congruence. }
        destruct (ne_frame _ N1 _ _ _ _ O2) as (fr & F & _). apply frame_len in F.
        destruct S as [|t' o' U|t' fr' rest a y s lg p St Ex Ey P|t' id' o' k rest a St|t' fr' rest e' g St P|s e' g Q' O']; cbn [rhist] in H2.
        + apply (f_equal (@length _)) in H2. rewrite app_length in H2. simpl in H2. lia.
        + apply app_inj_tail in H2 as [_ H2]. injection H2 as _ -> H2 _. lia.
        + unfold rafter in H2. cbn [rhist] in H2. apply app_inv_head in H2. destruct lg; discriminate.
        + apply (f_equal (@length _)) in H2. rewrite app_length in H2. simpl in H2. lia.
        + apply app_inj_tail in H2 as [_ H2]. destruct P as [(x & -> & _)|(m & -> & _)]; discriminate.
        + apply app_inj_tail in H2 as [_ H2]. subst e'. discriminate. }
    exists t, d1, d2, (f_op fr2). split; [assumption|]. split; [|assumption]. split; [rewrite firstn_nth; assumption|].
    apply (rdone_firstn _ _ (length (rhist r))); [|now rewrite firstn_all]. apply Nat.lt_le_incl, nth_error_Some. congruence.
  Qed.
End Unwinding.

Section Waits.
  Context {V : Type} (E : env V) (ro : bool) (l0 : list V) (c0 m0 : nat).
  Implicit Types (q : qcfg V) (c : wcfg V).
  Notation qexecution := (qexecution E ro l0 c0 m0).
  Notation wexec_ := (wexecution E ro l0 c0 m0).

  Lemma frame_rof q t d fr : frame_at (stack t (q_run q)) d = Some fr -> frame_at (stack t (rrun (rof q))) d = Some (frame_of fr).
  Proof. intros F. cbn [rof rrun]. rewrite stack_framed. unfold frame_at in *. rewrite <- map_rev, nth_error_map, F. reflexivity. Qed.
  Lemma q_suspended q t d fr : qexecution q -> frame_at (stack t (q_run q)) d = Some fr -> S d < length (stack t (q_run q)) -> exists k, k_prog fr = RClo k.
  Proof.
    intros X F L. destruct (gnest_of E _ (qexec_gexec _ _ _ _ _ _ X)) as [_ N]. destruct (ne_susp _ N t d (frame_of fr) (frame_rof _ _ _ _ F)) as (k & P); [|eauto].
    cbn [rof rrun]. now rewrite stack_framed, map_length.
  Qed.
  Lemma flat_frame q w c cur t d fr : qsim w q c cur -> frame_at (stack t (q_run q)) d = Some fr ->
    exists x, wlookup (agent t d) (w_run c) = Some x /\ qmatches w (q_ans q) fr x.
  Proof. intros S F. pose proof (qs_run _ _ _ _ S t d) as M. rewrite F in M. destruct (wlookup (agent t d) (w_run c)); [|contradiction]. destruct M; eauto. Qed.
  Lemma flat_frame_inv q w c cur u x : qsim w q c cur -> wlookup u (w_run c) = Some x ->
    exists t d fr, u = agent t d /\ frame_at (stack t (q_run q)) d = Some fr /\ qmatches w (q_ans q) fr x.
  Proof.
    intros S L. destruct (agent_onto u) as (t & d & ->). pose proof (qs_run _ _ _ _ S t d) as M. rewrite L in M.
    destruct (frame_at (stack t (q_run q)) d) eqn:F; [destruct M; eauto 6|contradiction].
  Qed.
  (** answers that were not given count as panics *)
  Lemma next_answer (l : list (nat * option (ans V))) id : dropw (asked id l) (answered l id) 0 = None.
  Proof.
    assert (K : answered l id (asked id l) = None) by (unfold answered, asked; apply nth_overflow; rewrite map_length; lia).
    now rewrite dropw_0.
  Qed.

  (** A suspended call holds nothing but the element it lends. *)
  Lemma q_holds q c cur g f t d fr k i x : qexecution q -> qsim (answered (q_ans q)) q c cur -> world E ro c g f -> wexec_ c ->
    frame_at (stack t (q_run q)) d = Some fr -> k_prog fr = RClo k -> wlookup (agent t d) (w_run c) = Some x -> In i (fst (f (agent t d))) ->
    lends (k_op fr) (length (values_read (q_hist q) (k_id fr))) = Some i.
  Proof.
    intros X S (_ & _ & Hi) Xc F P Lk Hin. pose proof (qexec_gexec _ _ _ _ _ _ X) as G. pose proof (frame_rof _ _ _ _ F) as Fr.
    destruct (flat_frame _ _ _ _ _ _ _ S F) as (x' & Lk' & M1 & M2 & _ & A). rewrite Lk in Lk'. injection Lk' as <-.
    pose proof (h_touch _ _ _ _ Hi _ _ _ Lk Hin) as T. rewrite M2 in T. pose proof (h_calm _ _ _ _ Hi _ _ Lk) as Ca.
    assert (Ng : rgrows (k_op fr) = false) by (clear - T; destruct (k_op fr); try reflexivity; simpl in *; try contradiction; unfold rgrows; simpl; destruct o; simpl in *; try reflexivity; contradiction).
    destruct (g_tidy E _ _ _ _ G Fr Ng) as (n & Td). cbn [frame_of f_op f_prog] in Td. rewrite P in Td. specialize (Td None). destruct Td as [Q _].
    destruct (gnest_of E _ G) as [_ N]. pose proof (ne_clo _ N _ _ _ Fr) as C. cbn [frame_of f_op f_prog f_id] in C. rewrite P in C. destruct C as [C _]. cbn [rof rhist] in C.
    rewrite P in A. apply agr_inv in A. rewrite next_answer in A.
    set (H := fst (f (agent t d))) in *. set (u := snd (f (agent t d))) in *.
    assert (Wh : waits_holding E (wc_op x) = false).
    { rewrite M2. unfold waits_holding. destruct (k_op fr) eqn:Ho; auto. exfalso. pose proof (g_plain E _ _ _ _ o G Fr) as K. cbn [frame_of f_op f_prog] in K. rewrite P in K. exact (K Ho). }
    rewrite Wh in Ca. destruct (lends (k_op fr) n) as [j|] eqn:Le.
    - destruct (lends (k_op fr) (length (values_read (q_hist q) (k_id fr)))) as [j'|] eqn:Le'; [|apply (lends_none _ _ n) in Le'; congruence].
      specialize (C j' eq_refl None). 
      assert (Y : inhabited V).
      { assert (NF : forall g, wstep E c (WStep (agent t d) 0) <> WFault g) by (intros g'; eapply execution_safe; eauto; exact Logic.I).
        assert (En : wstep E c (WStep (agent t d) 0) <> WDisabled -> inhabited V); [|apply En].
        - intros En. simpl in NF, En. unfold wstep_thread in NF, En. rewrite Lk in NF, En. unfold rest_ok in Q. destruct (k None) as [| |b k1| |]; try contradiction.
          apply agr_inv in A as (k2 & A & _). rewrite A in NF, En. destruct (wexec E (wc_id x) b 0 (w_mem c) (w_view c (agent t d))) as [y M tv|g'|]; [|exfalso; eapply NF; reflexivity|congruence].
          destruct b; try contradiction; constructor; exact y.
        - simpl. unfold wstep_thread. rewrite Lk. unfold rest_ok in Q. destruct (k None) as [| |b k1| |]; try contradiction. apply agr_inv in A as (k2 & A & _). rewrite A.
          destruct b; try contradiction; cbn [wexec]; unfold with_wslot; destruct (_ <? _); try discriminate; [destruct (may_read _ _ _)|destruct (may_write _ _ _)]; try discriminate;
            destruct (wv _); discriminate. }
      destruct Y as [y]. unfold rest_ok in Q. destruct (k None) as [| |b k1| |]; try contradiction. apply agr_inv in A as (k2 & A & A2). rewrite A in Ca.
      assert (Ce : exists v, Locks.calm (self_swap (wc_op x)) false (fun _ H _ => H = []) H u (k2 v) /\ j = j' /\ drops (fun _ => True) j (k1 v)).
      { destruct b; try contradiction; destruct Q as [-> Q], Ca as [_ Ca]; simpl in C; exists y; specialize (Ca y Logic.I); cbn [held known] in Ca; auto. }
      clear Ca. destruct Ce as (v & Ca & <- & Dr). specialize (A2 v). unfold drops in Dr. destruct (k1 v) as [| |b' k3| |]; try contradiction.
      destruct b'; try contradiction. destruct s; try contradiction. destruct Dr as [Ej Dr]. rewrite Ej in *. apply agr_inv in A2 as (k4 & A2 & A3). rewrite A2 in Ca.
      destruct Ca as [_ Ca]. specialize (Ca tt Logic.I). cbn [held known] in Ca. pose proof (light_calm _ _ _ _ _ _ _ (Dr tt) (A3 tt) Ca) as Em.
      f_equal. clearbody H. clear - Em Hin. destruct H as [|h H]; [destruct Hin|]. simpl in Em. destruct (Nat.eqb_spec j h) as [e|]; [|discriminate]. rewrite Em in Hin. destruct Hin as [Hi|[]]. congruence.
    - exfalso. simpl in Q. pose proof (light_calm _ _ _ _ _ _ _ Q A Ca) as Em. rewrite Em in Hin. destruct Hin.
  Qed.

  (** A suspended growth call that keeps others from going on is [push_for_idx]. *)
  Lemma q_position q c cur g f t d fr k u x z b : qexecution q -> qsim (answered (q_ans q)) q c cur -> world E ro c g f -> wexec_ c ->
    frame_at (stack t (q_run q)) d = Some fr -> k_prog fr = RClo k -> wlookup (agent t d) (w_run c) = Some z -> u <> agent t d ->
    wlookup u (w_run c) = Some x -> blocked (w_mem c) (wc_prog x) -> (exists ag kk, wc_prog x = Spin LoadCap ag kk) -> rgrows (k_op fr) = true ->
    block (wc_id z) (w_mem c) b (request (wc_op z)) -> b <= latest (m_cap (w_mem c)) < b + request (wc_op z) -> k_op fr = RPushFor.
  Proof.
    intros X S Wo Xc F P Lz Nu Lx Bx (ag & kk & Px) Gr Bz Hb. pose proof (qexec_gexec _ _ _ _ _ _ X) as G. pose proof (frame_rof _ _ _ _ F) as Fr.
    destruct (flat_frame _ _ _ _ _ _ _ S F) as (z' & Lz' & M1 & M2 & _ & A). rewrite Lz in Lz'. injection Lz' as <-.
    pose proof (g_gclo E _ _ _ _ G Fr Gr) as Gc. cbn [frame_of f_prog] in Gc. rewrite P in Gc, A. destruct Gc as [Gc _]. apply agr_inv in A. rewrite next_answer, Gc in A. apply agr_inv in A.
    pose proof Wo as (SI0 & _ & _). pose proof (si_ni _ _ _ _ SI0) as N. pose proof (ni_nd _ N) as Nd.
    assert (St : exists c', wstep E c (WStep (agent t d) 0) = WNext c' /\ w_mem c' = w_mem c /\ w_run c' = wremove (agent t d) (w_run c) /\ w_panics c' = w_panics c ++ [(wc_id z, wc_op z, PClosure)]).
    { simpl. unfold wstep_thread. rewrite Lz, A. eexists. split; [reflexivity|]. auto. }
    destruct St as (c' & St & Em & Er & Ep).
    assert (Xc' : wexec_ c') by (destruct Xc as (A1 & A2 & A3 & A4 & R); repeat (split; [assumption|]); econstructor; [exact R| |exact St]; exact Logic.I).
    destruct (execution_world E ro _ _ _ _ Xc') as (_ & g' & f' & Wo'). pose proof Wo' as (SI' & _ & _).
    assert (Lx' : wlookup u (w_run c') = Some x) by (rewrite Er, wlook_other; assumption).
    destruct (waiting E ro c' g' f' u x Wo' Lx') as [(i & u2 & z2 & (ag2 & k2 & Q & _) & _)|(_ & b2 & ag2 & k2 & _ & _ & _ & [(u2 & z2 & b' & Nu2 & Lu2 & _ & Bz2 & Hb2 & _)|(id & o & m & b' & n & Hin & Ov & Bz2 & Hb2)])].
    - now rewrite Em.
    - rewrite Px in Q. discriminate.
    - exfalso. rewrite Em in Bz2, Hb2. pose proof (block_disj E ro _ _ _ _ _ _ _ _ _ (si_wi _ _ _ _ SI0) Bz Bz2 Hb Hb2) as e.
      rewrite Er in Lu2. apply rem_look in Lu2 as [Ne Lu2]; [|assumption]. apply Ne. eapply (ni_ids _ N); eauto.
    - rewrite Em in Bz2, Hb2. pose proof (block_disj E ro _ _ _ _ _ _ _ _ _ (si_wi _ _ _ _ SI0) Bz Bz2 Hb Hb2) as e. subst id. rewrite Ep in Hin.
      apply in_app_or in Hin as [Hin|[Hin|[]]].
      + exfalso. apply (proj2 (ni_pan_lt _ N _ _ _ Hin)). exists (agent t d), z. auto.
      + injection Hin as <- <-. destruct Ov as [Ov|[_ (h & Ov)]]; [discriminate|]. rewrite M2 in Ov. destruct (k_op fr) eqn:Ho; try discriminate Ov; [|reflexivity].
        exfalso. pose proof (g_plain E _ _ _ _ o G Fr) as K. cbn [frame_of f_op f_prog] in K. rewrite P in K. exact (K Ho).
  Qed.

  Lemma qstay_inv q t k : qstep E q (QStep t k) = QNext q -> exists fr rest a ag kk y M tv, stack t (q_run q) = fr :: rest /\ k_prog fr = RSpin a ag kk /\
    wexec E (k_num fr) a k (q_mem q) (q_view q (agent t (length rest))) = WDone y M tv /\ ag y = true.
  Proof.
    intros S. cbv beta iota zeta delta [qstep] in S. destruct (stack t (q_run q)) as [|fr rest] eqn:St; [discriminate|].
    assert (Gone : Reentrant.put t rest (q_run q) <> q_run q).
    { intros e. apply (f_equal (stack t)) in e. rewrite stack_put, Nat.eqb_refl, St in e. apply (f_equal (@length _)) in e. simpl in e. lia. }
    assert (Moved : forall p, q_run q = Reentrant.put t (QFrame (k_num fr) (k_id fr) (k_op fr) (k_from fr) p :: rest) (q_run q) -> p = k_prog fr).
    { intros p e. apply (f_equal (stack t)) in e. rewrite stack_put, Nat.eqb_refl, St in e. injection e as e. apply (f_equal k_prog) in e. symmetry. exact e. }
    pose proof (rno_loop (k_prog fr)) as NL. destruct (k_prog fr) as [v|m|a kk|a again kk|kk] eqn:P; [| | | |discriminate].
    - apply qnext_inj in S. exfalso. apply Gone. apply (f_equal q_run) in S. exact S.
    - apply qnext_inj in S. exfalso. apply Gone. apply (f_equal q_run) in S. exact S.
    - destruct (wexec _ _ _ _ _ _) as [y M tv|f|]; [|discriminate ..]. apply qnext_inj in S. exfalso. apply (f_equal q_run) in S. unfold qafter in S. cbn [q_run] in S.
      apply (NL y). apply Moved. symmetry. exact S.
    - destruct (wexec _ _ _ _ _ _) as [y M tv|f|] eqn:Ex; [|discriminate ..]. destruct (again y) eqn:Ag.
      + exists fr, rest, a, again, kk, y, M, tv. auto.
      + apply qnext_inj in S. exfalso. apply (f_equal q_run) in S. unfold qafter in S. cbn [q_run] in S. apply (NL y). apply Moved. symmetry. exact S.
  Qed.
  Lemma same_request (o : rop V) u : request (with_answers u o) = asks o.
  Proof. destruct o; reflexivity. Qed.

  Lemma q_top q t d fr : frame_at (stack t (q_run q)) d = Some fr -> on_top q t d -> exists rest, stack t (q_run q) = fr :: rest /\ d = length rest.
  Proof.
    unfold on_top. intros F T. destruct (stack t (q_run q)) as [|f rest]; [discriminate|]. simpl in T. assert (d = length rest) as -> by lia.
    rewrite top_frame' in F. injection F as ->. eauto.
  Qed.
  Lemma q_busy q t d fr : qexecution q -> frame_at (stack t (q_run q)) d = Some fr -> busy q t d \/ exists k, k_prog fr = RClo k.
  Proof.
    intros X F. pose proof (frame_len _ _ _ F) as L. destruct (Nat.eq_dec (length (stack t (q_run q))) (Datatypes.S d)) as [T|N]; [|right; apply (q_suspended _ _ _ _ X F); lia].
    destruct (q_top _ _ _ _ F T) as (rest & St & _). destruct (k_prog fr) eqn:P; [| | | |right; eauto]; left; (split; [exact T|]); rewrite St; cbn [turn]; rewrite P; reflexivity.
  Qed.
  Lemma q_blocked q c cur g f t fr rest x : qexecution q -> qsim (answered (q_ans q)) q c cur -> world E ro c g f -> stack t (q_run q) = fr :: rest ->
    wlookup (agent t (length rest)) (w_run c) = Some x -> qwaits E q t -> blocked (w_mem c) (wc_prog x).
  Proof.
    intros X Si Wo St Lk W. destruct (qstay_inv _ _ _ W) as (fr1 & rest1 & a & ag & k & y & M & tv & St1 & P & Ex & Ag). rewrite St in St1. injection St1 as <- <-.
    assert (F : frame_at (stack t (q_run q)) (length rest) = Some fr) by (rewrite St; apply top_frame').
    destruct (flat_frame _ _ _ _ _ _ _ Si F) as (x' & Lk' & M1 & M2 & _ & A). rewrite Lk in Lk'. injection Lk' as <-. rewrite P in A. apply agr_inv in A as (k' & A & _).
    assert (Fq : qfront q t = newest a (q_mem q)) by (unfold qfront; rewrite St, P; reflexivity). rewrite Fq in Ex. pose proof (qs_mem _ _ _ _ Si) as Em.
    assert (EOK : env_ok E) by apply X.
    destruct (front_step E ro EOK c g f _ x Wo Lk) as [[B _]|(_ & c' & Sc & Mv)]; [exact B|exfalso].
    assert (c' = c); [|subst c'; eapply moved_ne; eauto].
    assert (Fc : front c (agent t (length rest)) = newest a (w_mem c)) by (unfold front; rewrite Lk, A; reflexivity).
    simpl in Sc. unfold wstep_thread in Sc. rewrite Lk, A, Fc, Em, (qs_view _ _ _ _ Si), M1, Ex, Ag in Sc. now injection Sc as <-.
  Qed.

  Theorem q_waits_on q t : qexecution q -> qwaits E q t -> exists fr d, runs q t d fr /\ on_top q t d /\
    ((exists i, rtouches (k_op fr) i /\ qstate q i = RESERVED /\
        (has_lent (q_hist q) (k_id fr) i \/
         exists t' d' fr', t' <> t /\ runs q t' d' fr' /\ lively E q t' d' fr' /\ rtouches (k_op fr') i /\
           (busy q t' d' \/ lends (k_op fr') (length (values_read (q_hist q) (k_id fr'))) = Some i))) \/
     (rgrows (k_op fr) = true /\ exists b, qreserved q (k_num fr) b (asks (k_op fr)) /\ qcapacity q < b /\
        ((exists t' d' fr' b', runs q t' d' fr' /\ (t' <> t -> on_top q t' d' -> ~ qwaits E q t') /\ rgrows (k_op fr') = true /\ qreserved q (k_num fr') b' (asks (k_op fr')) /\ b' <= qcapacity q < b' + asks (k_op fr') /\
            (t' <> t /\ busy q t' d' \/
             k_op fr' = RPushFor /\ (t' = t -> inside (q_hist q) (k_id fr) (k_id fr') RPushFor))) \/
         (exists num id o m b' n, In (num, id, o, m) (q_panics q) /\ overran (with_answers (fun _ => None) o) m /\ qreserved q num b' n /\ b' <= qcapacity q < b' + n))) \/
     (exists o1, k_op fr = RPlain o1 /\ self_swap o1 = true /\ hspin E = true)).
  Proof.
    intros X W. pose proof (qexec_gexec _ _ _ _ _ _ X) as G. destruct (qstay_inv _ _ _ W) as (fr & rest & a & ag & k & y & M & tv & St & P & Ex & Ag).
    assert (F : frame_at (stack t (q_run q)) (length rest) = Some fr) by (rewrite St; apply top_frame').
    exists fr, (length rest). split; [exact F|]. split; [unfold on_top; now rewrite St|].
    destruct (qflat E ro l0 c0 m0 q (answered (q_ans q)) X (consistent_self _)) as (c & cur & Xc & _ & Si). destruct (gnest_of E _ G) as [_ N].
    destruct (flat_frame _ _ _ _ _ _ _ Si F) as (x & Lk & M1 & M2 & _ & A). rewrite P in A. apply agr_inv in A as (k' & A & _).
    destruct (execution_world E ro _ _ _ _ Xc) as (EOK & g & f & Wo). pose proof (qs_mem _ _ _ _ Si) as Em.
    pose proof (q_blocked _ _ _ _ _ _ _ _ _ X Si Wo St Lk W) as Bk.
    assert (Rs : forall num b n, block num (w_mem c) b n -> qreserved q num b n).
    { intros num b n Bl. rewrite Em in Bl. destruct Bl as (j & m & m' & A1 & A2 & A3 & A4 & A5). exists j, m', m. auto. }
    assert (Ca : latest (m_cap (w_mem c)) = qcapacity q) by (unfold qcapacity; now rewrite Em).
    destruct (waiting E ro c g f _ x Wo Lk Bk) as [(i & u & z & _ & Hg & Lu & _ & T1 & T2 & Nz & Hs)|(Gx & b & ag' & k2 & Px & Bb & Lt & [(u & z & b' & Nu & Lu & Gz & Bz & Hb & Nz)|(num & o & m & b' & n & Hin & Ov & Bz & Hb)])].
    - destruct (flat_frame_inv _ _ _ _ _ _ Si Lu) as (t' & d' & fr' & -> & F' & M1' & M2' & _ & _). pose proof (frame_len _ _ _ F') as Ld.
      assert (Ts : qstate q i = RESERVED).
      { unfold qstate. rewrite <- Em. apply (locked_top E ro (w_mem c) g i (si_wi _ _ _ _ (proj1 Wo))). eauto. }
      rewrite M2 in T1. rewrite M2' in T2. pose proof (same_touches _ _ (fun _ => None) _ T1) as T1'. pose proof (same_touches _ _ (fun _ => None) _ T2) as T2'.
      assert (Hold : In i (fst (f (agent t' d')))).
      { destruct Wo as (SI0 & _ & Hi). destruct (h_lock _ _ _ _ Hi i _ Hg) as (u2 & z2 & Lu2 & Hid & Hin). rewrite <- (ni_ids _ (si_ni _ _ _ _ SI0) _ _ _ _ Lu2 Lu Hid). exact Hin. }
      destruct (Nat.eq_dec t' t) as [->|Nt].
      + destruct (Nat.eq_dec d' (length rest)) as [->|Nd].
        * right. right. destruct (Hs eq_refl) as [H1 H2]. unfold waits_holding in H2. apply andb_true_iff in H2 as [_ H2]. rewrite M2 in H1. destruct (k_op fr); try discriminate H1. eauto.
        * left. exists i. split; [assumption|]. split; [assumption|]. left. rewrite St in Ld. simpl in Ld. assert (L : d' < length rest) by lia.
          destruct (q_suspended _ _ _ _ X F') as (k1 & P1); [rewrite St; simpl; lia|].
          pose proof (q_holds _ _ _ _ _ _ _ _ _ _ _ X Si Wo Xc F' P1 Lu Hold) as Le.
          pose proof (g_order E _ _ _ _ _ _ G (frame_rof _ _ _ _ F') (frame_rof _ _ _ _ F) L) as Ins. cbn [frame_of f_id f_op] in Ins. exists (k_id fr'), (k_op fr'). split; [exact Ins|].
          pose proof (g_outer_values E _ _ _ _ G Ins) as Ov. cbn [rof rhist] in Ov. rewrite <- Ov; [exact Le|]. apply (ne_open _ N t (length rest) (frame_of fr)). now apply frame_rof.
      + left. exists i. split; [assumption|]. split; [assumption|]. right. exists t', d', fr'. split; [assumption|]. split; [exact F'|]. split; [|split; [assumption|]].
        * intros Tp W'. destruct (q_top _ _ _ _ F' Tp) as (rest' & St' & Ed). subst d'. pose proof (Nz (q_blocked _ _ _ _ _ _ _ _ _ X Si Wo St' Lu W')) as H2.
          unfold waits_holding in H2. apply andb_true_iff in H2 as [H1 H2]. rewrite M2' in H1. destruct (k_op fr'); try discriminate H1. eauto.
        * destruct (q_busy _ _ _ _ X F') as [Bu|(k1 & P1)]; [now left|]. right. exact (q_holds _ _ _ _ _ _ _ _ _ _ _ X Si Wo Xc F' P1 Lu Hold).
    - right. left. destruct (flat_frame_inv _ _ _ _ _ _ Si Lu) as (t' & d' & fr' & -> & F' & M1' & M2' & _ & _). pose proof (frame_len _ _ _ F') as Ld.
      rewrite M2, same_grows in Gx. rewrite M1, M2, same_request in Bb. pose proof Gz as Gz'. rewrite M2', same_grows in Gz'. rewrite Ca in Lt. split; [exact Gx|]. exists b. split; [auto|]. split; [assumption|].
      left. exists t', d', fr', b'. split; [exact F'|].
      split. { intros _ Tp W'. destruct (q_top _ _ _ _ F' Tp) as (rest' & St' & Ed). subst d'. exact (Nz (q_blocked _ _ _ _ _ _ _ _ _ X Si Wo St' Lu W')). }
      split; [exact Gz'|]. pose proof (Rs _ _ _ Bz) as Bz'. rewrite M1', M2', same_request in Bz'. split; [exact Bz'|].
      split; [rewrite M2', same_request, Ca in Hb; exact Hb|].
      assert (Susp : forall k1, k_prog fr' = RClo k1 -> k_op fr' = RPushFor).
      { intros k1 P1. eapply (q_position q c cur g f t' d' fr' k1 (agent t (length rest)) x z b'); eauto. }
      destruct (Nat.eq_dec t' t) as [->|Nt].
      + right. assert (L : d' < length rest). { rewrite St in Ld. simpl in Ld. assert (d' <> length rest) by congruence. lia. }
        destruct (q_suspended _ _ _ _ X F') as (k1 & P1); [rewrite St; simpl; lia|]. pose proof (Susp _ P1) as Q1. split; [exact Q1|]. intros _. rewrite <- Q1.
        exact (g_order E _ _ _ _ _ _ G (frame_rof _ _ _ _ F') (frame_rof _ _ _ _ F) L).
      + destruct (q_busy _ _ _ _ X F') as [Bu|(k1 & P1)]; [now left|]. right. split; [exact (Susp _ P1)|]. contradiction.
    - right. left. rewrite M2, same_grows in Gx. rewrite M1, M2, same_request in Bb. rewrite Ca in Lt, Hb. split; [exact Gx|]. exists b. split; [auto|]. split; [assumption|]. right.
      rewrite (qs_pan _ _ _ _ Si) in Hin. apply in_map_iff in Hin as ([[[num' id'] o'] m'] & Q & Hin). simpl in Q. injection Q as -> Qo ->. exists num, id', o', m, b', n.
      split; [exact Hin|]. split; [rewrite <- Qo in Ov; exact (same_overran _ _ _ _ Ov)|]. split; [auto|exact Hb].
  Qed.
End Waits.

(** ** A call made inside closures, while no other thread has calls *)
Section Alone.
  Context {V : Type} (E : env V) (ro : bool) (l0 : list V) (c0 m0 : nat).
  Implicit Types (q : qcfg V) (c : wcfg V).
  Notation qexecution := (qexecution E ro l0 c0 m0).

  (** [q'] comes from [q] by steps of the innermost calls of thread [t], which read the newest messages. *)
  Inductive qalone (t : nat) : qcfg V -> qcfg V -> Prop :=
  | qa_here q : qalone t q q
  | qa_step q q1 q2 : qstep E q (QStep t (qfront q t)) = QNext q1 -> qalone t q1 q2 -> qalone t q q2.

  Lemma wexec_lists id (a : act V) k M tv y M' tv' : wexec E id a k M tv = WDone y M' tv' ->
    (m_resv M' = m_resv M \/ exists m, m_resv M' = m_resv M ++ [m] /\ mby m = id) /\ (m_cap M' = m_cap M \/ exists m, m_cap M' = m_cap M ++ [m]).
  Proof.
    destruct a; simpl; unfold with_wslot; intros H;
      repeat match goal with
        | H : context [if ?b then _ else _] |- _ => let Q := fresh "Q" in destruct b eqn:Q
        | H : context [match ?b with _ => _ end] |- _ => let Q := fresh "Q" in destruct b eqn:Q
        end; try discriminate; injection H as <- <- <-; simpl; split; auto; right; eexists; try split; reflexivity.
  Qed.

  Lemma under' {F} (fr : F) s d : d <> length s -> frame_at (fr :: s) d = frame_at s d.
  Proof. intros Ne. rewrite frame_push. destruct (Nat.eqb_spec d (length s)); [contradiction|reflexivity]. Qed.
  Definition frames_below q (t n : nat) (P : qframe V -> Prop) : Prop := forall d fr, d < n -> runs q t d fr -> P fr.
  Definition ends_alone (p : rprog V (ret V)) : Prop := forall q t fr rest o, qexecution q -> stack t (q_run q) = fr :: rest -> k_prog fr = p -> k_op fr = RPlain o ->
    (forall t', t' <> t -> stack t' (q_run q) = []) -> self_swap o && hspin E = false -> (forall i, touches o i -> ~ has_lent (q_hist q) (k_id fr) i) ->
    (grows o = false \/
     (forall num id o' m, In (num, id, o', m) (q_panics q) -> ~ overran (with_answers (fun _ => None) o') m) /\
     frames_below q t (length rest) (fun fr' => k_op fr' = RPushFor -> forall b, qreserved q (k_num fr') b 1 -> b < qcapacity q)) ->
    exists q', qalone t q q' /\ stack t (q_run q') = rest /\ rdone (q_hist q') (k_id fr) = true.

  Lemma q_numbers q t d fr t' d' fr' : qexecution q -> runs q t d fr -> runs q t' d' fr' -> k_num fr = k_num fr' -> t = t' /\ d = d'.
  Proof.
    intros X F F' e. destruct (qflat E ro l0 c0 m0 q (answered (q_ans q)) X (consistent_self _)) as (c & cur & Xc & _ & Si).
    destruct (execution_world E ro _ _ _ _ Xc) as (_ & g & f & (SI0 & _)).
    destruct (flat_frame _ _ _ _ _ _ _ Si F) as (x & Lk & M1 & _). destruct (flat_frame _ _ _ _ _ _ _ Si F') as (x' & Lk' & M1' & _).
    apply agent_inj. eapply (ni_ids _ (si_ni _ _ _ _ SI0)); [exact Lk|exact Lk'|congruence].
  Qed.
  Lemma q_caps q l q' : qexecution q -> qclient E ro q l -> qstep E q l = QNext q' -> (exists m, m_cap (q_mem q') = m_cap (q_mem q) ++ [m]) -> qcapacity q <= qcapacity q'.
  Proof.
    intros X P S (m & Hm). pose proof (qexecution_step E ro l0 c0 m0 _ _ _ X P S) as X'.
    destruct (qflat E ro l0 c0 m0 q' (answered (q_ans q')) X' (consistent_self _)) as (c & cur & Xc & _ & Si). destruct (execution_world E ro _ _ _ _ Xc) as (_ & g & f & (SI0 & _)).
    destruct (qflat E ro l0 c0 m0 q (answered (q_ans q)) X (consistent_self _)) as (c1 & cur1 & Xc1 & _ & Si1). destruct (execution_world E ro _ _ _ _ Xc1) as (_ & g1 & f1 & (SI1 & _)).
    unfold qcapacity at 1. unfold Weak.latest. destruct (wi_ne _ _ _ _ (si_wi _ _ _ _ SI1)) as (_ & _ & Nc). rewrite (qs_mem _ _ _ _ Si1) in Nc.
    destruct (nth_error (m_cap (q_mem q)) (last_ts (m_cap (q_mem q)))) as [m1|] eqn:Q; [|lia].
    unfold qcapacity. rewrite <- (qs_mem _ _ _ _ Si). eapply (cap_msgs E ro _ g _ _ (si_wi _ _ _ _ SI0)). rewrite (qs_mem _ _ _ _ Si), Hm.
    rewrite nth_error_app1; [exact Q|]. apply nth_error_Some. congruence.
  Qed.

  Lemma ends_step q t fr rest o (a : act V) y M tv p lg q1 : qexecution q -> stack t (q_run q) = fr :: rest -> k_op fr = RPlain o ->
    (forall t', t' <> t -> stack t' (q_run q) = []) -> self_swap o && hspin E = false -> (forall i, touches o i -> ~ has_lent (q_hist q) (k_id fr) i) ->
    (grows o = false \/
     (forall num id o' m, In (num, id, o', m) (q_panics q) -> ~ overran (with_answers (fun _ => None) o') m) /\
     frames_below q t (length rest) (fun fr' => k_op fr' = RPushFor -> forall b, qreserved q (k_num fr') b 1 -> b < qcapacity q)) ->
    wexec E (k_num fr) a (qfront q t) (q_mem q) (q_view q (agent t (length rest))) = WDone y M tv ->
    q1 = qafter t q fr rest p M tv lg -> qstep E q (QStep t (qfront q t)) = QNext q1 -> ends_alone p ->
    exists q', qalone t q q' /\ stack t (q_run q') = rest /\ rdone (q_hist q') (k_id fr) = true.
  Proof.
    intros X St Ho On Ss Tl Gr Ex Eq S IH. pose proof (qexecution_step E ro l0 c0 m0 _ (QStep t (qfront q t)) _ X Logic.I S) as X1.
    assert (F : runs q t (length rest) fr) by (unfold runs; rewrite St; apply top_frame').
    set (fr1 := QFrame (k_num fr) (k_id fr) (k_op fr) (k_from fr) p).
    assert (St1 : stack t (q_run q1) = fr1 :: rest) by (rewrite Eq; unfold qafter; cbn [q_run]; rewrite stack_put, Nat.eqb_refl; reflexivity).
    destruct (gnest_of E _ (qexec_gexec _ _ _ _ _ _ X)) as [R N]. pose proof (ri_ids _ R _ _ _ (frame_rof _ _ _ _ F)) as I1. cbn [frame_of f_id f_op rof rhist] in I1.
    assert (Lf : k_id fr < length (q_hist q)) by (apply nth_error_Some; congruence).
    destruct (IH q1 t fr1 rest o X1 St1 eq_refl Ho) as (q2 & A & B & D).
    - intros t' Nt. rewrite Eq. unfold qafter. cbn [q_run]. rewrite stack_put. destruct (Nat.eqb_spec t' t); [contradiction|auto].
    - assumption.
    - intros i Ti Hl. apply (Tl i Ti). rewrite Eq in Hl. unfold qafter in Hl. cbn [q_hist k_id fr1] in Hl.
      destruct Hl as (id1 & o1 & (t1 & d1 & d2 & o2 & L & O & I2) & Le). exists id1, o1. rewrite firstn_app in Le, O. replace (k_id fr - length (q_hist q)) with 0 in Le, O by lia.
      simpl in Le, O. rewrite app_nil_r in Le, O. split; [|exact Le]. exists t1, d1, d2, o2. split; [exact L|]. split; [exact O|].
      rewrite nth_error_app1 in I2; assumption.
    - destruct Gr as [Gr|[Gp Gf]]; [now left|]. right. split; [rewrite Eq; exact Gp|].
      intros d f1 Ld F1 Hp b Rb. unfold runs in F1. rewrite St1, under' in F1 by lia.
      assert (F0 : runs q t d f1) by (unfold runs; rewrite St, under'; [assumption|lia]).
      assert (Nn : k_num f1 <> k_num fr) by (intros e; destruct (q_numbers _ _ _ _ _ _ _ X F0 F e); lia).
      destruct (wexec_lists _ _ _ _ _ _ _ _ Ex) as [Lr Lc].
      assert (Rb0 : qreserved q (k_num f1) b 1).
      { rewrite Eq in Rb. unfold qafter, qreserved in Rb. cbn [q_mem] in Rb. destruct Lr as [Lr|(m & Lr & Bm)]; rewrite Lr in Rb; [exact Rb|].
        destruct Rb as (k & m1 & m2 & R1 & R2 & R3 & R4 & R5). assert (K : Datatypes.S k < length (m_resv (q_mem q))).
        { destruct (Nat.lt_ge_cases (Datatypes.S k) (length (m_resv (q_mem q)))) as [|Ge]; [assumption|exfalso]. rewrite nth_error_app2 in R2 by assumption.
          destruct (Datatypes.S k - length (m_resv (q_mem q))) as [|[|]]; simpl in R2; try discriminate. injection R2 as <-. congruence. }
        rewrite nth_error_app1 in R1, R2 by lia. exists k, m1, m2. auto. }
      pose proof (Gf d f1 Ld F0 Hp b Rb0) as Lt. destruct Lc as [Lc|(m & Lc)].
      + rewrite Eq. unfold qafter, qcapacity. cbn [q_mem]. rewrite Lc. exact Lt.
      + assert (qcapacity q <= qcapacity q1); [|lia]. apply (q_caps q (QStep t (qfront q t)) q1 X Logic.I S). exists m. rewrite Eq. unfold qafter. cbn [q_mem]. exact Lc.
    - exists q2. split; [econstructor; eauto|]. split; [exact B|exact D].
  Qed.

  Lemma q_front_runs q t fr rest (a : act V) : qexecution q -> stack t (q_run q) = fr :: rest -> (exists k, k_prog fr = RAct a k) \/ (exists ag k, k_prog fr = RSpin a ag k) ->
    exists y M tv, wexec E (k_num fr) a (qfront q t) (q_mem q) (q_view q (agent t (length rest))) = WDone y M tv.
  Proof.
    intros X St P. assert (F : frame_at (stack t (q_run q)) (length rest) = Some fr) by (rewrite St; apply top_frame').
    destruct (qflat E ro l0 c0 m0 q (answered (q_ans q)) X (consistent_self _)) as (c & cur & Xc & _ & Si).
    destruct (flat_frame _ _ _ _ _ _ _ Si F) as (x & Lk & M1 & M2 & _ & A). destruct (execution_world E ro _ _ _ _ Xc) as (EOK & g & f & (SI0 & _)).
    assert (Fq : qfront q t = newest a (q_mem q)) by (unfold qfront; rewrite St; destruct P as [(k & ->)|(ag & k & ->)]; reflexivity).
    pose proof (exec_enabled E ro (wc_id x) a _ _ _ (si_wi _ _ _ _ SI0) (si_view _ _ _ _ SI0 (agent t (length rest)))) as En.
    assert (NF : forall f, wstep E c (WStep (agent t (length rest)) (newest a (w_mem c))) <> WFault f) by (intros h; eapply execution_safe; eauto; exact Logic.I).
    simpl in NF. unfold wstep_thread in NF. rewrite Lk in NF. rewrite M1, (qs_mem _ _ _ _ Si), (qs_view _ _ _ _ Si) in En. rewrite M1, (qs_mem _ _ _ _ Si), (qs_view _ _ _ _ Si) in NF. rewrite Fq.
    destruct (wexec E (k_num fr) a (newest a (q_mem q)) (q_mem q) (q_view q (agent t (length rest)))) as [y M tv|h|] eqn:Ex; [eauto|exfalso|congruence].
    destruct P as [(k & P)|(ag & k & P)]; rewrite P in A; apply agr_inv in A as (k' & A & _); rewrite A, Ex in NF; eapply NF; reflexivity.
  Qed.

  Theorem q_ends (p : rprog V (ret V)) : ends_alone p.
  Proof.
    induction p as [v|m|a k IH|a ag k IH|k IH]; intros q t fr rest o X St P Ho On Ss Tl Gr.
    - eexists. split; [eapply qa_step; [cbv beta iota zeta delta [qstep]; rewrite St, P; reflexivity|apply qa_here]|]. cbn [q_run q_hist].
      split; [now rewrite stack_put, Nat.eqb_refl|]. rewrite rdone_snoc. simpl. rewrite Nat.eqb_refl. apply orb_true_r.
    - eexists. split; [eapply qa_step; [cbv beta iota zeta delta [qstep]; rewrite St, P; reflexivity|apply qa_here]|]. cbn [q_run q_hist].
      split; [now rewrite stack_put, Nat.eqb_refl|]. rewrite rdone_snoc. simpl. rewrite Nat.eqb_refl. apply orb_true_r.
    - destruct (q_front_runs q t fr rest a X St) as (y & M & tv & Ex); [eauto|].
      eapply (ends_step q t fr rest o a y M tv (k y)); eauto. cbv beta iota zeta delta [qstep]. rewrite St, P, Ex. reflexivity.
    - destruct (q_front_runs q t fr rest a X St) as (y & M & tv & Ex); [eauto|].
      destruct (ag y) eqn:Ag; [exfalso|eapply (ends_step q t fr rest o a y M tv (k y)); eauto; cbv beta iota zeta delta [qstep]; rewrite St, P, Ex, Ag; reflexivity].
      assert (Wt : qwaits E q t) by (unfold qwaits; cbv beta iota zeta delta [qstep]; rewrite St, P, Ex, Ag; reflexivity).
      destruct (q_waits_on E ro l0 c0 m0 q t X Wt) as (fr1 & d & F & Tp & Q).
      assert (d = length rest) as -> by (unfold on_top in Tp; rewrite St in Tp; simpl in Tp; lia).
      unfold runs in F. rewrite St, top_frame' in F. injection F as <-. rewrite Ho in Q.
      assert (Oth : forall t' d' f', t' <> t -> ~ runs q t' d' f') by (intros t' d' f' Nt Q'; apply frame_len in Q'; rewrite On in Q' by assumption; simpl in Q'; lia).
      destruct Q as [(i & Ti & _ & [Hl|(t' & d' & fr' & Nt & F' & _)])|[(Go & b & _ & _ & [(t' & d' & fr' & b' & F' & _ & Gf & Rb & Hb & Q)|(num & id & o' & m & b' & n & Hin & Ov & _)])|(o1 & Eo & Sw & Hs)]].
      + exact (Tl i Ti Hl).
      + exact (Oth _ _ _ Nt F').
      + destruct Gr as [Gr|[_ Gr]]; [unfold rgrows in Go; simpl in Go; congruence|]. destruct Q as [[Nt _]|(Hp & Hin)]; [exact (Oth _ _ _ Nt F')|].
        destruct (Nat.eq_dec t' t) as [->|Nt]; [|exact (Oth _ _ _ Nt F')]. rewrite Hp in Rb, Hb. change (asks RPushFor) with 1 in *.
        assert (d' < length rest).
        { pose proof (frame_len _ _ _ F') as Ld. rewrite St in Ld. simpl in Ld. destruct (Nat.eq_dec d' (length rest)) as [->|]; [|lia]. unfold runs in F'. rewrite St, top_frame' in F'. injection F' as <-. congruence. }
        specialize (Gr d' fr' H F' Hp b' Rb). lia.
      + destruct Gr as [Gr|[Gr _]]; [unfold rgrows in Go; simpl in Go; congruence|]. exact (Gr _ _ _ _ Hin Ov).
      + injection Eo as <-. rewrite Sw, Hs in Ss. discriminate.
    - exfalso. pose proof (g_plain E _ t (length rest) (frame_of fr) o (qexec_gexec _ _ _ _ _ _ X)) as K. cbn [frame_of f_op f_prog] in K. rewrite P in K. apply K; [|assumption].
      apply (frame_rof q t (length rest) fr). rewrite St. apply top_frame'.
  Qed.
End Alone.

(** ** A call that waits for the room of a call it is inside of *)
Section Hung.
  Context {V : Type} (E : env V) (ro : bool) (l0 : list V) (c0 m0 : nat).
  Implicit Types (q : qcfg V) (c : wcfg V).
  Notation qexecution := (qexecution E ro l0 c0 m0).

  (** how a step changes the stacks *)
  Lemma stack_step q l q' t : q_run q <> [] -> qstep E q l = QNext q' ->
    (exists x, q_hist q' = q_hist q ++ x /\ forall id u d v, In (NRet id u d v) x -> exists fr rest, stack u (q_run q) = fr :: rest /\ k_id fr = id /\ d = length rest /\
       stack u (q_run q') = rest /\ exists y, In y (q_res q') /\ p_num y = k_num fr /\ p_op y = k_op fr) /\
    (m_resv (q_mem q') = m_resv (q_mem q) \/ exists m, m_resv (q_mem q') = m_resv (q_mem q) ++ [m]) /\
    (m_cap (q_mem q') = m_cap (q_mem q) \/ exists u fr rest, stack u (q_run q) = fr :: rest /\ m_grow (q_mem q) = Some (k_num fr)) /\
    (stack t (q_run q') = stack t (q_run q) \/ (exists fr, stack t (q_run q') = fr :: stack t (q_run q)) \/
     exists fr rest, stack t (q_run q) = fr :: rest /\
       ((exists p, stack t (q_run q') = QFrame (k_num fr) (k_id fr) (k_op fr) (k_from fr) p :: rest) \/
        (rdone (q_hist q') (k_id fr) = true /\ stack t (q_run q') = rest))).
  Proof.
    intros Ne S.
    assert (Nil : forall id u d v, In (NRet id u d v) (@nil (revent V)) -> exists fr rest, stack u (q_run q) = fr :: rest /\ k_id fr = id /\ d = length rest /\
       stack u (q_run q') = rest /\ exists y, In y (q_res q') /\ p_num y = k_num fr /\ p_op y = k_op fr) by (intros ? ? ? ? []).
    assert (Acc : forall j u' e lg id u d v, In (NRet id u d v) (map (NAcc (V := V) j u' e) lg) -> exists fr rest, stack u (q_run q) = fr :: rest /\ k_id fr = id /\ d = length rest /\
       stack u (q_run q') = rest /\ exists y, In y (q_res q') /\ p_num y = k_num fr /\ p_op y = k_op fr) by (intros ? ? ? ? ? ? ? ? Hi; apply in_map_iff in Hi as (? & Hi & _); discriminate Hi).
    destruct l as [u o from|u k|u a|u w| |n]; cbv beta iota zeta delta [qstep] in S.
    - destruct (turn _) in S; [|discriminate]. destruct (qfetch _ _ _) as [x|]; [|discriminate]. apply qnext_inj in S; subst q'. cbn [q_mem q_hist q_run].
      split; [eexists; split; [reflexivity|intros ? ? ? ? [Hi|[]]; discriminate Hi]|]. split; [auto|]. split; [auto|]. rewrite stack_put. destruct (Nat.eqb_spec t u) as [->|]; [right; left; eauto|auto].
    - destruct (stack u (q_run q)) as [|fr rest] eqn:St; [discriminate|]. destruct (k_prog fr) as [v|m|a kk|a again kk|kk] eqn:P; [| | | |discriminate].
      + apply qnext_inj in S; subst q'. cbn [q_mem q_hist q_run q_res]. split; [|split; [auto|]; split; [auto|]].
        * eexists; split; [reflexivity|]. intros id u' d v' [Hi|[]]. injection Hi as <- <- <- <-. exists fr, rest. split; [assumption|]. split; [reflexivity|]. split; [reflexivity|].
          split; [rewrite stack_put, Nat.eqb_refl; reflexivity|]. eexists. split; [apply in_or_app; right; now left|]. auto.
        * rewrite stack_put. destruct (Nat.eqb_spec t u) as [->|]; [right; right|auto]. exists fr, rest. split; [assumption|]. right. split; [|reflexivity].
          unfold rdone. rewrite existsb_app. simpl. rewrite Nat.eqb_refl. now destruct (existsb _ _).
      + apply qnext_inj in S; subst q'. cbn [q_mem q_hist q_run q_res].
        split; [eexists; split; [reflexivity|intros ? ? ? ? [Hi|[]]; discriminate Hi]|]. split; [auto|]. split; [auto|]. rewrite stack_put.
        destruct (Nat.eqb_spec t u) as [->|]; [right; right|auto]. exists fr, rest. split; [assumption|]. right. split; [|reflexivity].
        unfold rdone. rewrite existsb_app. simpl. rewrite Nat.eqb_refl. now destruct (existsb _ _).
      + destruct (wexec _ _ _ _ _ _) as [y M tv|f|] eqn:Ex; [|discriminate ..]. apply qnext_inj in S; subst q'. unfold qafter. cbn [q_mem q_hist q_run q_res].
        split; [eexists; split; [reflexivity|apply Acc]|]. destruct (wexec_lists E _ _ _ _ _ _ _ _ Ex) as [Lr _]. split; [destruct Lr as [|(? & ? & _)]; eauto|].
        split; [destruct (wexec_grow E _ _ _ _ _ _ _ _ Ex); eauto 6|]. rewrite stack_put.
        destruct (Nat.eqb_spec t u) as [->|]; [right; right|auto]. exists fr, rest. split; [assumption|]. left. eauto.
      + destruct (wexec _ _ _ _ _ _) as [y M tv|f|] eqn:Ex; [|discriminate ..]. destruct (again y); apply qnext_inj in S; subst q'; [split; [exists []; rewrite app_nil_r; auto|auto]|].
        unfold qafter. cbn [q_mem q_hist q_run q_res]. split; [eexists; split; [reflexivity|apply Acc]|]. destruct (wexec_lists E _ _ _ _ _ _ _ _ Ex) as [Lr _]. split; [destruct Lr as [|(? & ? & _)]; eauto|].
        split; [destruct (wexec_grow E _ _ _ _ _ _ _ _ Ex); eauto 6|]. rewrite stack_put.
        destruct (Nat.eqb_spec t u) as [->|]; [right; right|auto]. exists fr, rest. split; [assumption|]. left. eauto.
    - destruct (stack u (q_run q)) as [|[n id o from [v|m|a' k|a' again k|k]] rest] eqn:St; try discriminate. apply qnext_inj in S; subst q'. cbn [q_mem q_hist q_run].
      split; [exists []; rewrite app_nil_r; auto|]. split; [auto|]. split; [auto|]. rewrite stack_put. destruct (Nat.eqb_spec t u) as [->|]; [right; right|auto].
      exists (QFrame n id o from (RClo k)), rest. split; [assumption|]. left. exists (k a). reflexivity.
    - destruct (turn _) in S; [|discriminate]. apply qnext_inj in S; subst q'. cbn [q_mem q_hist q_run]. split; [exists []; rewrite app_nil_r; auto|]. auto.
    - destruct (q_run q); [contradiction|discriminate].
    - destruct (q_run q); [contradiction|discriminate].
  Qed.

  Lemma resv_keep q q' num b n : m_resv (q_mem q') = m_resv (q_mem q) \/ (exists m, m_resv (q_mem q') = m_resv (q_mem q) ++ [m]) -> qreserved q num b n -> qreserved q' num b n.
  Proof.
    unfold qreserved. intros [->|(m & ->)]; [auto|]. intros (k & m1 & m2 & R1 & R2 & R3). exists k, m1, m2.
    rewrite !nth_error_app1; [auto|apply nth_error_Some; congruence|apply nth_error_Some; congruence].
  Qed.
  Lemma q_world q : qexecution q -> exists c cur g f, qsim (answered (q_ans q)) q c cur /\ world E ro c g f.
  Proof.
    intros X. destruct (qflat E ro l0 c0 m0 q (answered (q_ans q)) X (consistent_self _)) as (c & cur & Xc & _ & Si).
    destruct (execution_world E ro _ _ _ _ Xc) as (_ & g & f & Wo). eauto 8.
  Qed.
  Lemma q_block q c cur num b n : qsim (answered (q_ans q)) q c cur -> qreserved q num b n -> 0 < n -> block num (w_mem c) b n.
  Proof. intros S (k & m & m' & R1 & R2 & R3 & R4 & R5) Ln. rewrite <- (qs_mem _ _ _ _ S) in R1, R2. exists k, m', m. auto. Qed.

  (** The capacity stays as it is while the call that reserved the first position beyond it is suspended. *)
  Lemma q_stands q l q' t d fr n : qexecution q -> q_run q <> [] -> qstep E q l = QNext q' -> runs q t d fr -> d + 1 < length (stack t (q_run q)) ->
    qreserved q (k_num fr) (qcapacity q) n -> 0 < n -> qcapacity q' = qcapacity q.
  Proof.
    intros X Ne S F Ls R Ln. destruct (stack_step q l q' t Ne S) as (_ & _ & [Hc|(u & fu & rest & Su & Hg)] & _); [unfold qcapacity; now rewrite Hc|exfalso].
    destruct (q_world q X) as (c & cur & g & f & Si & (SI0 & _ & Hi)). pose proof (si_wi _ _ _ _ SI0) as W. rewrite <- (qs_mem _ _ _ _ Si) in Hg. apply (wi_grow _ _ _ _ W) in Hg.
    destruct (h_own _ _ _ _ Hi _ _ (or_introl Hg)) as (b & k & Bl & Hb).
    assert (e : k_num fr = k_num fu).
    { unfold qcapacity in R. rewrite <- (qs_mem _ _ _ _ Si) in R. pose proof (q_block _ _ _ _ _ _ Si R Ln) as Bl2.
      eapply (block_disj E ro (w_mem c) g _ _ _ _ _ _ _ W Bl2 Bl); [|exact Hb]. lia. }
    assert (Fu : runs q u (length rest) fu) by (unfold runs; rewrite Su; apply top_frame').
    destruct (q_numbers E ro l0 c0 m0 _ _ _ _ _ _ _ X F Fu e) as [-> ->]. rewrite Su in Ls. simpl in Ls. lia.
  Qed.
  (** A growth call that returns had room for its positions. *)
  Lemma q_room q x b : qexecution q -> In x (q_res q) -> rgrows (p_op x) = true -> 0 < asks (p_op x) -> qreserved q (p_num x) b (asks (p_op x)) ->
    b + asks (p_op x) <= qcapacity q.
  Proof.
    intros X Hin Gr Z R. destruct (q_world q X) as (c & cur & g & f & Si & (SI0 & BI0 & Hi)).
    pose proof (q_block _ _ _ _ _ _ Si R Z) as Bl. set (w := answered (q_ans q)) in *.
    assert (Hx : In (flat_res w x) (w_res c)) by (rewrite (qs_res _ _ _ _ Si); now apply in_map).
    destruct (si_res _ _ _ _ SI0 _ Hx) as (_ & Ot & _ & _ & Op).
    assert (Y : exists b', block (p_num x) (w_mem c) b' (asks (p_op x)) /\ stored ro (w_mem c) (p_to x) (with_answers (w (p_id x)) (p_op x)) b').
    { cbn [flat_res r_op r_id r_to r_ret] in Op. rewrite <- (same_request (p_op x) (w (p_id x))). rewrite <- (same_grows (p_op x) (w (p_id x))) in Gr.
      destruct (with_answers (w (p_id x)) (p_op x)); try discriminate Gr; destruct Op as (b' & _ & Op); eauto. }
    destruct Y as (b' & Bl' & St). destruct (block_same E _ _ _ _ _ _ BI0 Bl Bl') as [-> _].
    destruct (St (asks (p_op x) - 1)) as [[[Y _] _] _]; [rewrite same_request; lia|]. pose proof (latest_bound E ro (w_mem c) (p_to x) (ex_intro _ g (si_wi _ _ _ _ SI0))) as Lb.
    rewrite (qs_mem _ _ _ _ Si) in Lb, Y. unfold qcapacity. lia.
  Qed.
  Lemma gmove_hist (r r' : rcfg V) : gmove E r r' ->
    exists x, rhist r' = rhist r ++ x /\ forall id t d v, In (NRet id t d v) x -> exists fr, frame_at (stack t (rrun r)) d = Some fr /\ f_id fr = id.
  Proof.
    intros S. destruct S as [|t' o' U|t' fr rest a y s lg p St Ex Ey P|t' id' o' k rest a St|t' fr rest e' g St P|s e' g Q O']; try unfold rafter; cbn [rhist].
    - exists []. rewrite app_nil_r. split; [reflexivity|]. intros ? ? ? ? [].
    - eexists. split; [reflexivity|]. intros ? ? ? ? [Hi|[]]; discriminate Hi.
    - eexists. split; [reflexivity|]. intros ? ? ? ? Hi. apply in_map_iff in Hi as (? & Hi & _). discriminate Hi.
    - exists []. rewrite app_nil_r. split; [reflexivity|]. intros ? ? ? ? [].
    - eexists. split; [reflexivity|]. intros id t d v [Hi|[]]. destruct P as [(x & -> & _)|(m & -> & _)]; [|discriminate Hi]. injection Hi as <- <- <- <-.
      exists fr. rewrite St. split; [apply top_frame|reflexivity].
    - eexists. split; [reflexivity|]. intros id t d v [Hi|[]]. rewrite Hi in O'. discriminate O'.
  Qed.
  Lemma q_same_id q t d fr t' d' fr' : qexecution q -> runs q t d fr -> runs q t' d' fr' -> k_id fr = k_id fr' -> t = t' /\ d = d'.
  Proof.
    intros X F F' e. destruct (gnest_of _ _ (qexec_gexec E ro l0 c0 m0 q X)) as [Ri _].
    pose proof (ri_ids _ Ri _ _ _ (frame_rof _ _ _ _ F)) as I1. pose proof (ri_ids _ Ri _ _ _ (frame_rof _ _ _ _ F')) as I2.
    cbn [frame_of f_id] in I1, I2. rewrite e, I2 in I1. injection I1 as -> -> _. auto.
  Qed.
  Lemma q_undone q t d fr : qexecution q -> runs q t d fr -> rdone (q_hist q) (k_id fr) = false.
  Proof.
    intros X F. destruct (gnest_of _ _ (qexec_gexec E ro l0 c0 m0 q X)) as [_ N]. exact (ne_open _ N _ _ _ (frame_rof _ _ _ _ F)).
  Qed.
  Lemma runs_run q t d fr : runs q t d fr -> q_run q <> [] /\ d < length (stack t (q_run q)).
  Proof.
    unfold runs. intros F. split; [intros Q; rewrite Q in F; unfold frame_at in F; destruct d; discriminate|]. unfold frame_at in F.
    rewrite <- rev_length. apply nth_error_Some. congruence.
  Qed.

  (** Frames below the innermost one stay; the innermost one keeps its call until it is done. *)
  Lemma runs_step q l q' t d fr : runs q t d fr -> qstep E q l = QNext q' ->
    (exists fr', runs q' t d fr' /\ k_num fr' = k_num fr /\ k_id fr' = k_id fr /\ k_op fr' = k_op fr) \/
    rdone (q_hist q') (k_id fr) = true /\ length (stack t (q_run q)) = Datatypes.S d.
  Proof.
    intros F S. destruct (runs_run _ _ _ _ F) as [Ne Ld]. destruct (stack_step q l q' t Ne S) as (_ & _ & _ & K). unfold runs in *.
    destruct K as [->|[(f1 & ->)|(f1 & rest & St & K)]].
    - left. eauto.
    - left. exists fr. rewrite under' by lia. auto.
    - rewrite St in F, Ld |- *. simpl in Ld |- *. destruct (Nat.eq_dec d (length rest)) as [->|Nd].
      + rewrite top_frame' in F. injection F as ->. destruct K as [(p & ->)|(D & _)]; [|auto]. left. eexists. rewrite top_frame'. split; [reflexivity|]. auto.
      + rewrite under' in F by assumption. left. exists fr. destruct K as [(p & ->)|(D & ->)]; [rewrite under' by assumption|]; auto.
  Qed.

  Lemma q_hangs q q' t d fr d1 fr1 b : qexecution q -> runs q t d fr -> runs q t d1 fr1 -> d1 < d -> qreserved q (k_num fr1) (qcapacity q) 1 ->
    rgrows (k_op fr) = true -> 0 < asks (k_op fr) -> qreserved q (k_num fr) b (asks (k_op fr)) -> qcapacity q < b + asks (k_op fr) ->
    qreach E (qclient E ro) q q' -> forall t' d' v, ~ In (NRet (k_id fr) t' d' v) (q_hist q').
  Proof.
    intros X F F1 Ld R1 G A R Lb Rc.
    assert (K : qexecution q' /\ (forall t' d' v, ~ In (NRet (k_id fr) t' d' v) (q_hist q')) /\
      (rdone (q_hist q') (k_id fr) = true \/
       exists f f1, runs q' t d f /\ runs q' t d1 f1 /\ k_num f = k_num fr /\ k_id f = k_id fr /\ k_op f = k_op fr /\ k_num f1 = k_num fr1 /\
         qcapacity q' = qcapacity q /\ qreserved q' (k_num fr) b (asks (k_op fr)) /\ qreserved q' (k_num fr1) (qcapacity q) 1)); [|apply K].
    induction Rc as [|qa l qb Rc IH C S].
    - split; [assumption|]. split.
      + intros t' d' v Hi. pose proof (q_undone _ _ _ _ X F) as U. unfold rdone in U.
        assert (Y : existsb (is_rend (k_id fr)) (q_hist q) = true) by (apply existsb_exists; eexists; split; [exact Hi|]; simpl; apply Nat.eqb_refl). congruence.
      + right. exists fr, fr1. repeat (split; [auto|]). assumption.
    - destruct IH as (Xa & Na & IH). pose proof (qexecution_step E ro l0 c0 m0 _ _ _ Xa C S) as Xb. split; [assumption|]. destruct IH as [D|(f & f1 & Ff & Ff1 & E1 & E2 & E3 & E4 & Ca & Ra & Ra1)].
      + destruct (gmove_hist (rof qa) (rof qb) (qstep_gmove E _ _ _ S)) as (x & Hx & Hr). cbn [rof rhist] in Hx, Hr. split.
        * rewrite Hx. intros t' d' v Hi. apply in_app_or in Hi as [Hi|Hi]; [eapply Na; eauto|]. destruct (Hr _ _ _ _ Hi) as (f & Ff & Q).
          destruct (gnest_of _ _ (qexec_gexec E ro l0 c0 m0 qa Xa)) as [_ N]. pose proof (ne_open _ N _ _ _ Ff) as U. cbn [rof rhist] in U. rewrite Q in U. congruence.
        * left. rewrite Hx. unfold rdone in *. rewrite existsb_app, D. reflexivity.
      + destruct (runs_run _ _ _ _ Ff) as [Ne Lf]. destruct (stack_step qa l qb t Ne S) as ((x & Hx & Hr) & Rr & _ & _).
        assert (Cb : qcapacity qb = qcapacity q).
        { rewrite <- Ca. eapply (q_stands qa l qb t d1 f1 1); [exact Xa|exact Ne|exact S|exact Ff1|lia| |lia]. rewrite E4, Ca. exact Ra1. }
        pose proof (resv_keep qa qb _ _ _ Rr Ra) as Rb. pose proof (resv_keep qa qb _ _ _ Rr Ra1) as Rb1. split.
        * rewrite Hx. intros t' d' v Hi. apply in_app_or in Hi as [Hi|Hi]; [eapply Na; eauto|]. destruct (Hr _ _ _ _ Hi) as (g & rest & Sg & Ig & -> & _ & y & Iy & Y1 & Y2).
          assert (Fg : runs qa t' (length rest) g) by (unfold runs; rewrite Sg; apply top_frame').
          destruct (q_same_id qa t d f t' (length rest) g Xa Ff Fg ltac:(congruence)) as [<- e]. rewrite <- e in Fg. unfold runs in Fg, Ff. rewrite Ff in Fg. injection Fg as <-.
          pose proof (q_room qb y b Xb Iy) as Z. rewrite Y1, Y2, E1, E3 in Z. specialize (Z G A Rb). lia.
        * destruct (runs_step qa l qb t d f Ff S) as [(f' & Fb & B1 & B2 & B3)|[D _]]; [|left; rewrite <- E2; exact D]. right.
          destruct (runs_step qa l qb t d1 f1 Ff1 S) as [(f1' & Fb1 & B4 & _)|[_ Ll]]; [|lia].
          exists f', f1'. repeat (split; [first [assumption|congruence]|]). exact Rb1.
  Qed.
End Hung.
