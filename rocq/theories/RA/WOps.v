(** * The view machine: growth, and a postcondition for every call. *)

From Coq Require Import List Arith Bool Lia.
From Verif.Model Require Import Prog Mem Deps State Elem Vec Excl Machine.
From Verif Require Import Client.
From Verif.Logic Require Specs.
From Verif.RA Require Import Weak WInv WStep WSlots WSpecs.
Import ListNotations.
Local Arguments Nat.leb : simpl never.
Local Arguments Nat.ltb : simpl never.
Local Arguments Nat.eqb : simpl never.
Local Arguments Nat.add : simpl never.
Local Arguments Nat.sub : simpl never.
Local Arguments Nat.max : simpl never.
Local Arguments WStep.wp : simpl never.

Section WOps.
  Context {V : Type} (E : env V) (ro : bool) (EOK : env_ok E) (id : nat) (lossy : bool).
  Notation clean := (clean lossy).
  Notation PP := (PP lossy).
  Notation wmem := (wmem V).
  Notation WI := (WI E ro).
  Notation good := (good E ro).
  Notation mle := (mle ro).
  Notation prog := (prog V).
  Notation wpq Q QP p L M tv := (WStep.wp E ro id Q QP p L M tv).
  Notation wp Q p L M tv := (WStep.wp E ro id Q PP p L M tv).
  Notation up := (up E ro).
  Notation now := (now E ro).
  Notation gok := (gok ro).
  Implicit Types (M : wmem) (g : nat -> wgst) (tv : view) (L : toks).

  (** ** Growth *)
  Definition own b n f := Tok b n None [] f false false.
  Lemma clean_own b n f : lossy = true -> clean (own b n f).
  Proof. intros ->. repeat split. discriminate. Qed.

  Lemma w_grow (Q : unit -> _ -> _ -> _ -> Prop) QP b n M tv :
    now M tv -> b + n <= m_max M -> (forall M' tv', up M tv M' tv' -> b + n <= capv M' tv' -> Q tt (own b n false) M' tv') ->
    wpq Q QP (grow_to (b + n)) (Tok b n None [] true true false) M tv.
  Proof.
    intros N Hm H. apply w_bind. apply w_act; [assumption|]. intros M0 tv0 U0. destruct (up_now _ _ _ _ _ _ U0) as [G O]. assert (E0 : m_max M0 = m_max M) by apply (le_max _ _ _ (proj1 (proj2 U0))).
    apply do_grow_beg; auto; [rewrite E0; assumption|]. intros M1 A B C. apply w_ret. assert (U1 : up M0 tv0 M1 tv0) by (apply mk_up; auto using vle_refl).
    apply w_act; [eapply up_now; eauto|]. intros M1' tv1' U1'. assert (E1 : m_max M1' = m_max M1) by apply (le_max _ _ _ (proj1 (proj2 U1'))). destruct (up_now _ _ _ _ _ _ U1') as [G1 O1].
    apply do_grow_end; auto.
    - rewrite E1, (le_max _ _ _ A), E0. assumption.
    - intros M2 tv2 A2 B2 C2 D2 H2. apply w_ret. apply H; [|assumption]. eapply up_trans; [exact U0|]. eapply up_trans; [exact U1|]. eapply up_trans; [exact U1'|]. now apply mk_up.
  Qed.
  Lemma w_max (Q : nat -> _ -> _ -> _ -> Prop) QP L M tv :
    now M tv -> (forall M' tv', up M tv M' tv' -> Q (m_max M') L M' tv') -> wpq Q QP core_maximum_capacity L M tv.
  Proof.
    intros N H. apply w_act; [assumption|]. intros M0 tv0 U0. destruct (up_now _ _ _ _ _ _ U0) as [G O]. apply do_max. intros M' A B C. apply w_ret. apply H.
    eapply up_trans; [exact U0|]. apply mk_up; auto using vle_refl.
  Qed.
  Lemma w_single (Q : unit -> _ -> _ -> _ -> Prop) (QP : panic -> _ -> _ -> _ -> Prop) b M tv :
    now M tv -> (forall M' tv', up M tv M' tv' -> QP PMaxCap (own b 1 true) M' tv') -> (forall f M' tv', up M tv M' tv' -> b < capv M' tv' -> Q tt (own b 1 f) M' tv') -> wpq Q QP (single_item_as_ref b) (own b 1 true) M tv.
  Proof.
    intros N HP H. apply w_bind. apply w_max; [assumption|]. intros M1 tv1 U1. destruct (Nat.ltb_spec b (m_max M1)) as [Hb|]; [|apply w_fail; auto].
    apply w_spin; [eapply up_now; eauto|]. intros M1' tv1' U1'. assert (E1 : m_max M1' = m_max M1) by apply (le_max _ _ _ (proj1 (proj2 U1'))).
    apply do_room; auto. intros M2 c tv2 A B C D Ag Hc. assert (U2 : up M1 tv1 M2 tv2) by (eapply up_trans; [exact U1'|]; apply mk_up; auto; apply U1'). simpl t_b. simpl t_n. unfold write_permit in *. destruct (Nat.compare_spec b c) as [e|l|l]; [| |discriminate].
    - split; [|lia]. intros _. apply w_grow; [eapply up_now; eauto|rewrite (le_max _ _ _ A), E1; lia|]. intros M3 tv3 U3 C3. apply H; [eauto using up_trans|lia].
    - split; [lia|]. intros _. apply w_ret. apply H; [eauto using up_trans|lia].
  Qed.
  Lemma w_buffer (Q : unit -> _ -> _ -> _ -> Prop) (QP : panic -> _ -> _ -> _ -> Prop) b n M tv :
    now M tv -> b + n < wmod E -> (forall M' tv', up M tv M' tv' -> QP PMaxCap (own b n true) M' tv') -> (forall f M' tv', up M tv M' tv' -> (0 < n -> b + n <= capv M' tv') -> Q tt (own b n f) M' tv') -> wpq Q QP (n_items_buffer E b n) (own b n true) M tv.
  Proof.
    intros N Hw HP H. unfold n_items_buffer. destruct (Nat.eqb_spec n 0) as [->|Hn]; [apply w_ret; apply H; [now apply up_refl|lia]|].
    unfold uadd. apply Nat.ltb_lt in Hw. rewrite Hw. simpl chk. apply w_bind. apply w_ret. unfold usub. destruct (Nat.leb_spec 1 (b + n)); [|lia]. simpl chk. apply w_bind. apply w_ret.
    apply w_bind. apply w_max; [assumption|]. intros M1 tv1 U1. destruct (Nat.ltb_spec (b + n - 1) (m_max M1)) as [Hb|]; [|apply w_fail; auto].
    apply w_spin; [eapply up_now; eauto|]. intros M1' tv1' U1'. assert (E1 : m_max M1' = m_max M1) by apply (le_max _ _ _ (proj1 (proj2 U1'))).
    apply do_room; auto. intros M2 c tv2 A B C D Ag Hc. assert (U2 : up M1 tv1 M2 tv2) by (eapply up_trans; [exact U1'|]; apply mk_up; auto; apply U1'). simpl t_b. simpl t_n.
    assert (W : n = 0 \/ (c < b \/ b + n - 1 < c) \/ b <= c < b + n) by lia. destruct W as [W|[W|W]]; [lia| |].
    - split; [lia|]. intros _. unfold write_permit_n_items in *. destruct (Nat.compare_spec (b + n - 1) c), (Nat.compare_spec b c); simpl in *; try discriminate; try lia; apply w_ret; apply H; [eauto using up_trans|lia].
    - split; [|lia]. intros _. unfold write_permit_n_items in *. destruct (Nat.compare_spec (b + n - 1) c), (Nat.compare_spec b c); simpl in *; try discriminate; try lia;
        (apply w_grow; [eapply up_now; eauto|rewrite (le_max _ _ _ A), E1; lia|]; intros M3 tv3 U3 C3; apply H; [eauto using up_trans|lia]).
  Qed.
  Lemma w_init (Q : unit -> _ -> _ -> _ -> Prop) QP i n f v M tv :
    now M tv -> i < capv M tv -> (forall M' tv', up M tv M' tv' -> avail M' tv' i -> (ro = true -> wv (sl M' i) = Some v) -> Q tt (own (S i) n f) M' tv') ->
    wpq Q QP (initialize_unchecked i v) (own i (S n) f) M tv.
  Proof.
    intros N Hi H. apply w_bind. apply w_act; [assumption|]. intros M0 tv0 U0. destruct (up_now _ _ _ _ _ _ U0) as [G O]. pose proof (up_cap _ _ _ _ _ _ U0).
    apply do_init_beg; [lia|assumption|simpl; lia|]. intros M1 A1 B1 C1. apply w_ret.
    assert (U1 : up M0 tv0 M1 tv0) by (apply mk_up; auto using vle_refl). apply w_bind. apply w_act; [eapply up_now; eauto|]. intros M1' tv1' U1'.
    destruct (up_now _ _ _ _ _ _ U1') as [G1 O1]. pose proof (up_cap _ _ _ _ _ _ U1). pose proof (up_cap _ _ _ _ _ _ U1').
    apply do_init_end; auto; [lia|simpl; lia|]. intros M2 tv2 A2 B2 C2 D2 V2. apply w_ret. replace (wrote i (own i (S n) f)) with (Tok (S i) n (Some i) [] f false false) by (unfold wrote, own; simpl; f_equal; lia).
    assert (U2 : up M1' tv1' M2 tv2) by now apply mk_up. pose proof (up_cap _ _ _ _ _ _ U2).
    apply w_act; [eapply up_now; eauto|]. intros M2' tv2' U2'. destruct (up_now _ _ _ _ _ _ U2') as [G2 O2]. pose proof (up_cap _ _ _ _ _ _ U2').
    apply do_publish; auto; [lia|]. intros M3 tv3 A3 B3 C3 D3 S3 V3. apply w_ret. assert (U3 : up M2' tv2' M3 tv3) by now apply mk_up. pose proof (up_cap _ _ _ _ _ _ U3).
    apply (H M3 tv3); [eauto 10 using up_trans|split; [lia|assumption]|]. intros R. apply V3; [assumption|]. rewrite <- V2. apply (up_val _ _ _ _ _ _ i U2' R). congruence.
  Qed.
  (** the position [i+j], and the value stored there, once [j] items are written *)
  Lemma w_items f n (QP : panic -> _ -> _ -> _ -> Prop) : forall i it (Q : unit -> _ -> _ -> _ -> Prop) M tv,
    now M tv -> (0 < n -> i + n <= capv M tv) ->
    (forall m j k M' tv', up M tv M' tv' -> m = PShortIter \/ m = PClosure -> QP m (own j k f) M' tv') ->
    (forall M' tv', up M tv M' tv' -> (forall j, j < n -> avail M' tv' (i + j) /\ exists v, nth_error it j = Some (Some v) /\ (ro = true -> wv (sl M' (i + j)) = Some v)) -> Q tt (own (i + n) 0 f) M' tv') ->
    wpq Q QP (write_items i n it) (own i n f) M tv.
  Proof.
    induction n as [|n IH]; intros i it Q M tv N Hc HP H.
    - apply w_ret. specialize (H M tv (up_refl _ _ _ _ N)). rewrite Nat.add_0_r in H. apply H. lia.
    - cbn [write_items]. destruct it as [|[v|] it]; [apply w_fail; apply HP; [now apply up_refl|auto]| |apply w_fail; apply HP; [now apply up_refl|auto]].
      apply w_bind. apply w_init; [assumption|lia|]. intros M1 tv1 U1 A1 V1. pose proof (up_cap _ _ _ _ _ _ U1). apply IH; [eapply up_now; eauto|lia|intros; apply HP; [eapply up_trans; eauto|assumption]|].
      intros M2 tv2 U2 A2. replace (S i + n) with (i + S n) by lia. apply H; [eauto using up_trans|]. intros [|j] Hj.
      + rewrite Nat.add_0_r. split; [eapply up_avail; eauto|]. exists v. split; [reflexivity|]. intros R. rewrite <- (V1 R). apply (up_val _ _ _ _ _ _ i U2 R). rewrite (V1 R). discriminate.
      + destruct (A2 j) as [X Y]; [lia|]. replace (i + S j) with (S i + j) by lia. auto.
  Qed.

  (** ** Postconditions *)
  Definition block M b n : Prop :=
    exists k m m', nth_error (m_resv M) k = Some m' /\ mval m' = b /\ nth_error (m_resv M) (S k) = Some m /\ mval m = b + n /\ mby m = id.
  Definition readable M tv i : Prop := avail M tv i /\ seen_resv M tv (S i).
  Definition stored M tv o b : Prop :=
    forall j, j < request o -> readable M tv (b + j) /\ exists v, stores o b j v /\ (ro = true -> wv (sl M (b + j)) = Some v).
  Definition opost (from : view) (o : op V) (r : ret V) M tv : Prop :=
    (forall x, In x (grants r) -> gok M tv x) /\
    match o with
    | OPush _ | OPushFor _ | OExtend _ _ | OExtendFor _ _ | OExtendN _ _ => exists b, r = RNat b /\ block M b (request o) /\ stored M tv o b
    | OLen => exists n, r = RNat n /\ pub M tv n /\ seen_wrtn M tv n /\ forall n', seen_wrtn M from n' -> n' <= n
    | OGet i => forall n', seen_wrtn M from n' -> i < n' -> r = ROptElem (Some i)
    | OIter => exists n, r = RElems (seq 0 n) /\ pub M tv n /\ seen_wrtn M tv n /\ forall n', seen_wrtn M from n' -> n' <= n
    | OGetCloned i | OGetCopied i => exists x, r = ROptVal x /\ (readable M from i -> x <> None) /\ (forall v, x = Some v -> ro = true -> wv (sl M i) = Some v)
    | OElem i ECloned | OElem i ECopied => exists v, r = RVal v /\ (ro = true -> wv (sl M i) = Some v)
    | ODeref i => exists v, r = RVal v /\ (ro = true -> wv (sl M i) = Some v)
    | _ => True
    end.

  (** facts about a view that was valid before *)
  Lemma back_resv M M' tv n : mle M M' -> vok M tv -> seen_resv M' tv n -> seen_resv M tv n.
  Proof.
    intros H (O & _) (m & A & B). destruct (nth_error (m_resv M) (v_resv tv)) as [m'|] eqn:Q; [|apply nth_error_None in Q; lia].
    rewrite (prefix_nth _ _ _ _ (le_resv _ _ _ H) Q) in A. injection A as <-. now exists m'.
  Qed.
  Lemma back_wrtn M M' tv n : mle M M' -> vok M tv -> seen_wrtn M' tv n -> seen_wrtn M tv n.
  Proof.
    intros H (_ & O & _) (m & A & B). destruct (nth_error (m_wrtn M) (v_wrtn tv)) as [m'|] eqn:Q; [|apply nth_error_None in Q; lia].
    rewrite (prefix_nth _ _ _ _ (le_wrtn _ _ _ H) Q) in A. injection A as <-. now exists m'.
  Qed.
  Lemma back_avail M M' tv i : mle M M' -> vok M tv -> avail M' tv i -> avail M tv i.
  Proof.
    intros H O [X (m & A & B)]. split; [now rewrite <- (capv_le _ _ _ _ H O)|]. destruct O as (_ & _ & _ & O & _). specialize (O i).
    destruct (nth_error (ws (sl M i)) (v_st tv i)) as [m'|] eqn:Q; [|apply nth_error_None in Q; lia].
    rewrite (prefix_nth _ _ _ _ (le_st _ _ _ H i) Q) in A. injection A as <-. now exists m'.
  Qed.
  Lemma back_readable M M' tv i : mle M M' -> vok M tv -> readable M' tv i -> readable M tv i.
  Proof. intros H O [A B]. split; [eapply back_avail; eauto|eapply back_resv; eauto]. Qed.
  Lemma up_readable M tv M' tv' i : up M tv M' tv' -> readable M tv i -> readable M' tv' i.
  Proof. intros U [A B]. split; [eapply up_avail; eauto|eapply up_resv; eauto]. Qed.
  Lemma block_le M M' b n : mle M M' -> block M b n -> block M' b n.
  Proof. intros H (k & m & m' & A & B & C & D). exists k, m, m'. repeat split; try tauto; eapply prefix_nth; try apply (le_resv _ _ _ H); tauto. Qed.

  Lemma opost_up from o r M tv M' tv' : up M tv M' tv' -> vok M from -> good M -> opost from o r M tv -> opost from o r M' tv'.
  Proof.
    intros U Of G [A B]. pose proof (proj1 (proj2 U)) as H.
    assert (Bw : forall n', seen_wrtn M' from n' -> seen_wrtn M from n') by (intros; eapply back_wrtn; eauto).
    assert (Br : forall i, readable M' from i -> readable M from i) by (intros; eapply back_readable; eauto).
    assert (Va : forall i v, ro = true -> wv (sl M i) = Some v -> wv (sl M' i) = Some v).
    { intros i v R X. rewrite <- X. apply (le_ro _ _ _ H R). congruence. }
    assert (Gr : forall b, r = RNat b /\ block M b (request o) /\ stored M tv o b -> r = RNat b /\ block M' b (request o) /\ stored M' tv' o b).
    { intros b (X & Y & Z). split; [assumption|]. split; [eapply block_le; eauto|]. intros j Hj. destruct (Z j Hj) as (Z1 & v & Z2 & Z3). split; [eapply up_readable; eauto|]. eauto. }
    split; [intros x Hx; eapply gok_up; eauto|].
    destruct o as [v|f|n it|f n|it n| | | | |i|i|i|i|rg| | | |i j|v|f|v|v| |f|f|v f|f|m| | |n|l| |i e|x e|i| |i|i f]; auto; try (destruct B as (b & B); exists b; now apply Gr).
    - destruct B as (n & B1 & B2 & B3 & B4). exists n. split; [assumption|]. split; [eapply up_pub; eauto|]. split; [eapply up_wrtn; eauto|auto].
    - intros n' Hn. eauto.
    - destruct B as (x & B1 & B2 & B3). exists x. repeat split; eauto.
    - destruct B as (x & B1 & B2 & B3). exists x. repeat split; eauto.
    - destruct B as (n & B1 & B2 & B3 & B4). exists n. split; [assumption|]. split; [eapply up_pub; eauto|]. split; [eapply up_wrtn; eauto|auto].
    - destruct e; auto; destruct B as (v & B1 & B2); exists v; split; auto.
    - destruct B as (v & B1 & B2). exists v. split; auto.
  Qed.
  Lemma opost_le from o r M M' tv : mle M M' -> vok M from -> vok M tv -> good M -> good M' -> opost from o r M tv -> opost from o r M' tv.
  Proof. intros H Of Ot G G'. apply opost_up; auto. apply mk_up; auto using vle_refl. eapply vok_le; eauto. Qed.

  (** ** Reading methods *)
  Lemma w_vec_iter (Q : list nat -> _ -> _ -> _ -> Prop) L M tv :
    now M tv -> (forall n M' tv', up M tv M' tv' -> pub M' tv' n -> seen_wrtn M' tv' n -> (forall n', seen_wrtn M tv n' -> n' <= n) -> Q (seq 0 n) L M' tv') -> wp Q vec_iter L M tv.
  Proof.
    intros N H. apply w_bind. apply w_len; [assumption|]. intros n M1 tv1 U1 P1 W1 X1. apply w_iter; [eapply up_now; eauto|lia|apply P1|].
    intros M2 tv2 U2. rewrite Nat.sub_0_r. apply H; [eauto using up_trans|eapply up_pub; eauto|eapply up_wrtn; eauto|assumption].
  Qed.
  Lemma in_iter M tv n : pub M tv n -> forall i, In i (seq 0 n) -> avail M tv i.
  Proof. intros P i Hi. apply in_seq in Hi. eapply pub_avail; eauto. lia. Qed.
  Lemma w_get (Q : option nat -> _ -> _ -> _ -> Prop) i L M tv :
    now M tv -> (forall M' tv', up M tv M' tv' -> avail M' tv' i -> seen_wrtn M' tv' (S i) -> Q (Some i) L M' tv') ->
    (forall M' tv', up M tv M' tv' -> (forall n, seen_wrtn M tv n -> n <= i) -> Q None L M' tv') -> wp Q (vec_get i) L M tv.
  Proof.
    intros N H H'. apply w_bind. apply w_len; [assumption|]. intros n M1 tv1 U1 P1 W1 X1. destruct (Nat.ltb_spec i n) as [Hi|Hi].
    - assert (A1 : avail M1 tv1 i) by (eapply pub_avail; eauto). apply w_core_get; [eapply up_now; eauto| |].
      + intros M2 tv2 U2 C2. apply H; [eauto using up_trans|eapply up_avail; eauto|]. eapply up_wrtn; eauto. destruct W1 as (m & Wa & Wb). exists m. split; [assumption|lia].
      + intros M2 tv2 U2 C2. destruct A1. lia.
    - apply w_ret. apply H'; [assumption|]. intros n' Hn. specialize (X1 _ Hn). lia.
  Qed.
  Lemma w_index (Q : nat -> _ -> _ -> _ -> Prop) i L M tv :
    now M tv -> clean L -> (forall M' tv', up M tv M' tv' -> avail M' tv' i -> Q i L M' tv') -> wp Q (vec_index i) L M tv.
  Proof.
    intros N Cl H. apply w_bind. apply w_get; [assumption| |].
    - intros M1 tv1 U1 A1 _. apply w_ret. auto.
    - intros M1 tv1 U1 _. apply w_pan; [unfold badp; intuition discriminate|assumption].
  Qed.
  Lemma w_get_cloned (Q : option V -> _ -> _ -> _ -> Prop) i L M tv :
    now M tv -> clean L -> (forall v M' tv', up M tv M' tv' -> (ro = true -> wv (sl M' i) = Some v) -> Q (Some v) L M' tv') ->
    (forall M' tv', up M tv M' tv' -> ~ readable M tv i -> Q None L M' tv') -> wp Q (vec_get_cloned i) L M tv.
  Proof.
    intros N Cl H H'. apply w_bind. apply w_reserved; [assumption|]. intros n M1 tv1 U1 C1 X1. destruct (Nat.ltb_spec i n) as [Hi|Hi].
    - apply w_bind. apply w_core_get; [eapply up_now; eauto| |].
      + intros M2 tv2 U2 C2. unfold option_clone. assert (U : up M tv M2 tv2) by eauto using up_trans. apply w_map; [eapply up_now; eauto|assumption|assumption| |].
        * intros v u M3 tv3 U3 F3 V3 S3. injection F3 as <-. apply H; [eauto using up_trans|assumption].
        * intros M3 tv3 U3 S3. apply H'; [eauto using up_trans|]. intros [[A B] C]. apply S3. eapply up_some; eauto.
      + intros M2 tv2 U2 C2. apply w_ret. apply H'; [eauto using up_trans|]. intros [[A B] C]. pose proof (up_cap _ _ _ _ _ _ U1). lia.
    - apply w_ret. apply H'; [assumption|]. intros [[A B] C]. specialize (X1 _ C A). lia.
  Qed.

  (** ** Slices *)
  Lemma w_limits (Q : cslice -> _ -> _ -> _ -> Prop) r n a L M tv :
    range_ok E r -> clean L -> pub M tv (a + n) -> (forall x, pub M tv (sl_a x + sl_len x) -> Q x L M tv) ->
    wp Q (bind (chk POverflow (range_limits E r n)) (fun ab =>
             bind (chk POverflow (usub E (snd ab) (fst ab))) (fun len =>
             Ret (CSlice (a + fst ab) len)))) L M tv.
  Proof.
    intros HR Cl P H. apply w_bind. apply w_chk; [intros _; split; [unfold badp; intuition discriminate|assumption]|]. intros [p q] Er. simpl fst. simpl snd.
    destruct (Specs.range_limits_le _ _ _ _ _ Er) as [Hp Hq]. apply w_bind. apply w_chk; [intros _; split; [unfold badp; intuition discriminate|assumption]|]. intros len Hl. apply w_ret. apply H.
    simpl. eapply pub_less; eauto. unfold usub in Hl. destruct (Nat.leb_spec p q); [injection Hl as <-; lia|]. destruct HR as [HR|HR]; [rewrite HR in Hl; discriminate|]. specialize (HR _ _ _ Er). lia.
  Qed.
  Lemma w_slice (Q : cslice -> _ -> _ -> _ -> Prop) r L M tv :
    now M tv -> range_ok E r -> clean L -> (forall x M' tv', up M tv M' tv' -> pub M' tv' (sl_a x + sl_len x) -> Q x L M' tv') -> wp Q (vec_slice E r) L M tv.
  Proof.
    intros N R Cl H. apply w_bind. apply w_len; [assumption|]. intros n M1 tv1 U1 P1 W1 X1. apply (w_limits Q r n 0); auto.
  Qed.
  Lemma w_as_slice (Q : cslice -> _ -> _ -> _ -> Prop) L M tv :
    now M tv -> clean L -> (forall x M' tv', up M tv M' tv' -> pub M' tv' (sl_a x + sl_len x) -> Q x L M' tv') -> wp Q (vec_as_slice E) L M tv.
  Proof.
    intros N Cl H. apply w_bind. apply w_len; [assumption|]. intros n M1 tv1 U1 P1 W1 X1. apply w_slice; [eapply up_now; eauto|apply Specs.rng_ok; lia|assumption|].
    intros x M2 tv2 U2 P2. apply H; eauto using up_trans.
  Qed.
  Lemma w_slice_slice (Q : cslice -> _ -> _ -> _ -> Prop) x r L M tv :
    range_ok E r -> clean L -> pub M tv (sl_a x + sl_len x) -> (forall x', pub M tv (sl_a x' + sl_len x') -> Q x' L M tv) -> wp Q (slice_slice E x r) L M tv.
  Proof. apply w_limits. Qed.
  Lemma w_slice_get (Q : option nat -> _ -> _ -> _ -> Prop) x i L M tv :
    now M tv -> pub M tv (sl_a x + sl_len x) -> (forall M' tv', up M tv M' tv' -> i < sl_len x -> avail M' tv' (sl_a x + i) -> Q (Some (sl_a x + i)) L M' tv') ->
    (sl_len x <= i -> Q None L M tv) -> wp Q (slice_get x i) L M tv.
  Proof.
    intros N P H H'. unfold slice_get. destruct (Nat.ltb_spec i (sl_len x)) as [Hi|Hi]; [|apply w_ret; auto].
    assert (A : avail M tv (sl_a x + i)) by (eapply pub_avail; eauto; lia). apply w_core_get; [assumption| |intros; destruct A; lia].
    intros M1 tv1 U1 C1. apply H; auto. eapply up_avail; eauto.
  Qed.
  Lemma w_slice_index (Q : nat -> _ -> _ -> _ -> Prop) x i L M tv :
    now M tv -> clean L -> pub M tv (sl_a x + sl_len x) -> (forall M' tv' j, up M tv M' tv' -> avail M' tv' j -> Q j L M' tv') -> wp Q (slice_index x i) L M tv.
  Proof.
    intros N Cl P H. apply w_bind. apply w_slice_get; auto.
    - intros M1 tv1 U1 Hi A1. apply w_ret. auto.
    - intros _. apply w_pan; [unfold badp; intuition discriminate|assumption].
  Qed.
  Lemma w_slice_iter (Q : list nat -> _ -> _ -> _ -> Prop) x L M tv :
    now M tv -> pub M tv (sl_a x + sl_len x) -> (forall l M' tv', up M tv M' tv' -> (forall i, In i l -> avail M' tv' i) -> Q l L M' tv') -> wp Q (slice_iter x) L M tv.
  Proof.
    intros N P H. apply w_iter; [assumption|lia|apply P|]. intros M1 tv1 U1. apply H; [assumption|]. intros i Hi. apply in_seq in Hi. eapply up_avail; eauto. eapply pub_avail; eauto. lia.
  Qed.
  Lemma w_slices (p : nat * nat -> prog cslice) L :
    clean L ->
    (forall ab M tv (Q : cslice -> _ -> _ -> _ -> Prop), now M tv -> fst ab <= snd ab -> (forall x M' tv', up M tv M' tv' -> pub M' tv' (sl_a x + sl_len x) -> Q x L M' tv') -> wp Q (p ab) L M tv) ->
    forall l M tv (Q : list cslice -> _ -> _ -> _ -> Prop), now M tv -> (forall ab, In ab l -> fst ab <= snd ab) ->
      (forall xs M' tv', up M tv M' tv' -> (forall x, In x xs -> gok M' tv' (GSlice x)) -> Q xs L M' tv') -> wp Q (mapP p l) L M tv.
  Proof.
    intros Cl Hp l M tv Q N Hl H.
    apply (w_mapP _ _ _ _ p (fun ab _ _ => fst ab <= snd ab) (fun x M tv => gok M tv (GSlice x)) L); auto.
    intros b M1 tv1 M2 tv2 G U. exact (gok_up E ro _ _ _ _ _ U G).
  Qed.
  Lemma chunks_le len k : 0 < k -> forall ab, In ab (chunk_ranges len k) -> fst ab <= snd ab.
  Proof. intros Hk ab Hi. pose proof (Specs.chunk_ranges_in len k Hk ab Hi). lia. Qed.
  Lemma w_reduce (Q : option V -> _ -> _ -> _ -> Prop) x f L M tv :
    now M tv -> clean L -> pub M tv (sl_a x + sl_len x) -> (forall o M' tv', up M tv M' tv' -> Q o L M' tv') -> wp Q (slice_reduce x f) L M tv.
  Proof.
    intros N Cl P H. apply w_bind. apply w_slice_iter; auto. intros [|i l] M1 tv1 U1 A1; [apply w_ret; auto|]. apply w_bind. apply w_cloned; [eapply up_now; eauto|apply A1; now left|assumption|].
    intros v M2 tv2 U2 _. apply w_bind. apply w_fold_elems; [assumption|eapply up_now; eauto|intros j Hj; eapply up_avail; eauto; apply A1; now right|].
    intros r M3 tv3 U3. apply w_ret. apply H. eauto 10 using up_trans.
  Qed.

  (** ** Swap *)
  Lemma w_mut_handle (Q : option nat -> _ -> _ -> _ -> Prop) i L M tv :
    now M tv -> (forall M' tv', up M tv M' tv' -> i < capv M' tv' -> ~ In i (t_l L) -> Q (Some i) (lock i L) M' tv') ->
    (forall M' tv', up M tv M' tv' -> Q None L M' tv') -> wp Q (vec_mut_handle E i SOME) L M tv.
  Proof.
    intros N H H'. apply w_bind. apply w_len; [assumption|]. intros n M1 tv1 U1 P1 _ _. destruct (Nat.ltb_spec i n); [|apply w_ret; auto].
    apply w_bind. apply w_core_get; [eapply up_now; eauto| |]; [|intros M2 tv2 U2 _; apply w_ret; eauto using up_trans]. intros M2 tv2 U2 C2.
    apply w_bind. apply w_try; [eapply up_now; eauto|assumption| |].
    - intros M3 tv3 U3 Ni. apply w_ret. pose proof (up_cap _ _ _ _ _ _ U3). apply H; [eauto 10 using up_trans|lia|assumption].
    - intros M3 tv3 U3. apply w_ret. apply H'. eauto 10 using up_trans.
  Qed.
  Lemma w_swap (Q : bool -> _ -> _ -> _ -> Prop) i j L M tv :
    now M tv -> ro = false -> (forall b M' tv', up M tv M' tv' -> Q b L M' tv') -> wp Q (vec_swap E i j) L M tv.
  Proof.
    intros N R H. apply w_bind. apply w_mut_handle; [assumption| |].
    - intros M1 tv1 U1 C1 N1. apply w_bind. apply w_mut_handle; [eapply up_now; eauto| |].
      + intros M2 tv2 U2 C2 N2. pose proof (up_cap _ _ _ _ _ _ U2). assert (Ne : i <> j) by (intros ->; apply N2; now left).
        apply w_bind. apply w_wr_beg; [eapply up_now; eauto|lia|right; now left|assumption|]. intros M3 tv3 U3. apply w_ret. pose proof (up_cap _ _ _ _ _ _ U3).
        apply w_bind. apply w_wr_beg; [eapply up_now; eauto|lia|now left|assumption|]. intros M4 tv4 U4. apply w_ret. pose proof (up_cap _ _ _ _ _ _ U4).
        apply w_bind. apply w_act; [eapply up_now; eauto|]. intros M4' tv4' U4'. destruct (up_now _ _ _ _ _ _ U4') as [G4 O4]. pose proof (up_cap _ _ _ _ _ _ U4').
        apply do_swap; [lia|lia|assumption|right; now left|now left|assumption|assumption|]. intros M5 tv5 A5 B5 C5 D5. apply w_ret.
        assert (U5 : up M4 tv4 M5 tv5) by (eapply up_trans; [exact U4'|now apply mk_up]). pose proof (up_cap _ _ _ _ _ _ U5).
        apply w_bind. apply w_drop; [eapply up_now; eauto|lia|assumption|]. intros M6 tv6 U6. pose proof (up_cap _ _ _ _ _ _ U6).
        apply w_bind. apply w_drop; [eapply up_now; eauto|lia|assumption|]. intros M7 tv7 U7. apply w_ret. apply H. eauto 10 using up_trans.
      + intros M2 tv2 U2. apply w_bind. apply w_ret. pose proof (up_cap _ _ _ _ _ _ U2). apply w_bind. apply w_drop; [eapply up_now; eauto|lia|assumption|].
        intros M3 tv3 U3. apply w_ret. apply H. eauto 10 using up_trans.
    - intros M1 tv1 U1. apply w_bind. apply w_mut_handle; [eapply up_now; eauto| |].
      + intros M2 tv2 U2 C2 N2. apply w_bind. apply w_drop; [eapply up_now; eauto|lia|assumption|]. intros M3 tv3 U3. apply w_bind. apply w_ret. apply w_ret. apply H. eauto 10 using up_trans.
      + intros M2 tv2 U2. apply w_bind. apply w_ret. apply w_bind. apply w_ret. apply w_ret. apply H. eauto 10 using up_trans.
  Qed.

  (** What is known when a call panics: except beyond the maximum capacity and in the closure of
      [push_for_idx], the positions of a growth call are allocated *)
  Definition ppost (o : op V) (m : panic) L M tv : Prop :=
    PP m L M tv /\ (grows o = true -> overran o m \/ exists b, block M b (request o) /\ (0 < request o -> b + request o <= capv M tv)).

  (** ** All calls *)
  Definition post (from : view) (o : op V) (r : ret V) L M tv : Prop := WSpecs.clean false L /\ opost from o r M tv.
  Lemma clean0 : WSpecs.clean false tok0.
  Proof. repeat split. Qed.
  Lemma clean1 : clean tok0.
  Proof. repeat split. Qed.

  Lemma w_take (Q : nat -> _ -> _ -> _ -> Prop) QP n M tv :
    now M tv -> (forall b M' tv', up M tv M' tv' -> block M' b n -> b + n < wmod E -> seen_resv M' tv' (b + n) -> Q b (own b n true) M' tv') -> wpq Q QP (doo (AddResv n Relaxed)) tok0 M tv.
  Proof.
    intros N H. apply w_act; [assumption|]. intros M0 tv0 U0. destruct (up_now _ _ _ _ _ _ U0) as [G O]. apply do_add. intros M1 b tv1 k m A B C D F1 F2 F3 F4 (m' & F5 & F6) F7. apply w_ret.
    apply H; auto; [eapply up_trans; [exact U0|now apply mk_up]|]. exists k, m, m'. auto.
  Qed.
  Lemma post_grow from o b f M tv M' tv' :
    up M tv M' tv' -> block M b (request o) -> seen_resv M tv (b + request o) ->
    (match o with OPush _ | OPushFor _ | OExtend _ _ | OExtendFor _ _ | OExtendN _ _ => True | _ => False end) ->
    (forall j, j < request o -> avail M' tv' (b + j) /\ exists v, stores o b j v /\ (ro = true -> wv (sl M' (b + j)) = Some v)) ->
    post from o (RNat b) (own (b + request o) 0 f) M' tv'.
  Proof.
    intros U B S Ho H. split; [repeat split|]. split; [intros x []|].
    assert (X : exists b0 : nat, RNat b = RNat (V:=V) b0 /\ block M' b0 (request o) /\ stored M' tv' o b0).
    { exists b. split; [reflexivity|]. split; [eapply block_le; eauto; apply U|]. intros j Hj. destruct (H j Hj) as [X Y]. split; [|assumption].
      split; [assumption|]. eapply up_resv; eauto. eapply resv_less; eauto. lia. }
    destruct o; try contradiction; exact X.
  Qed.
  Lemma pp_own o m b n f M tv M' tv' b0 : lossy = true -> (m = PShortIter \/ m = PClosure \/ m = PIterLen) -> up M tv M' tv' -> block M b0 (request o) ->
    (0 < request o -> b0 + request o <= capv M tv) -> ppost o m (own b n f) M' tv'.
  Proof.
    intros Ly Hm U B C. split; [split; [unfold badp; intuition congruence|now apply clean_own]|]. intros _. right. exists b0. split; [eapply block_le; eauto; apply U|].
    intros H. pose proof (up_cap _ _ _ _ _ _ U). specialize (C H). lia.
  Qed.
  Lemma pp_max o b n f M tv : lossy = true -> ppost o PMaxCap (own b n f) M tv.
  Proof. intros Ly. split; [split; [unfold badp; intuition discriminate|now apply clean_own]|]. intros _. left. now left. Qed.
  Lemma w_extend it n o M tv :
    lossy = true -> now M tv -> request o = n -> (match o with OExtend _ x | OExtendN x _ => x = it | _ => False end) ->
    wpq (post tv o) (ppost o) (fmap RNat (extend_n_items E it n)) tok0 M tv.
  Proof.
    intros Ly N Hn Ho. apply w_fmap. apply w_bind. apply w_take; [assumption|]. intros b M1 tv1 U1 B1 W1 R1. apply w_bind. apply w_buffer; [eapply up_now; eauto|assumption|intros; now apply pp_max|].
    intros f M2 tv2 U2 C2. subst n. apply w_bind. apply w_items; [eapply up_now; eauto|assumption| |].
    { intros m j k M3 tv3 U3 Hm. apply (pp_own o m j k f M2 tv2 M3 tv3 b); auto; [tauto|]. eapply block_le; eauto. apply U2. }
    intros M3 tv3 U3 A3. apply w_ret.
    assert (U13 : up M1 tv1 M3 tv3) by eauto using up_trans. eapply post_grow; [exact U13|assumption|assumption|destruct o; try contradiction; exact I|].
    intros j Hj. destruct (A3 j Hj) as (X & v & Y & Z). split; [assumption|]. exists v. split; [|assumption]. destruct o; try contradiction; simpl; congruence.
  Qed.

  Ltac nothing := split; [exact clean0|split; [intros ? []|exact I]].
  Ltac step := solve [eapply up_now; eauto | eauto 10 using up_trans].
  Lemma w_eop i o M tv : now M tv -> avail M tv i -> (if ro then updates (OElem i o) = false else True) ->
    wp (post tv (OElem i o)) (eop_prog E i o) tok0 M tv.
  Proof.
    intros N A R. destruct o as [| |f|v|v|f|v]; simpl in R |- *; apply w_fmap.
    - apply w_cloned; auto using clean1. intros v M' tv' U H. split; [exact clean0|]. split; [intros ? []|]. exists v. auto.
    - apply w_cloned; auto using clean1. intros v M' tv' U H. split; [exact clean0|]. split; [intros ? []|]. exists v. auto.
    - apply w_elem_map; auto using clean1. intros v u M' tv' U F H. nothing.
    - apply w_replace; auto using clean1; [destruct ro; congruence|]. intros. nothing.
    - apply w_set; auto using clean1; [destruct ro; congruence|]. intros. nothing.
    - apply w_update; auto using clean1; [destruct ro; congruence|]. intros. nothing.
    - apply w_elem_eq; auto using clean1. intros. nothing.
  Qed.
  Lemma gok_seq M tv n : pub M tv n -> forall x, In x (map GElem (seq 0 n)) -> gok M tv x.
  Proof. intros P x Hx. apply in_map_iff in Hx as (i & <- & Hi). simpl. eapply in_iter; eauto. Qed.
  Lemma w_sop x o M tv : now M tv -> pub M tv (sl_a x + sl_len x) -> ranges_ok E (OSl x o) -> (if ro then updates (OSl x o) = false else True) ->
    wp (post tv (OSl x o)) (sop_prog E x o) tok0 M tv.
  Proof.
    intros N P Rg R. pose proof clean1 as Cl.
    assert (It : forall (Q : list nat -> _ -> _ -> _ -> Prop), (forall l M' tv', up M tv M' tv' -> now M' tv' -> (forall i, In i l -> avail M' tv' i) -> Q l tok0 M' tv') -> wp Q (slice_iter x) tok0 M tv).
    { intros Q H. apply w_slice_iter; auto. intros l M' tv' U A. apply H; auto. eapply up_now; eauto. }
    assert (Rw : (if ro then true = false else True) -> ro = false) by (destruct ro; congruence).
    destruct o as [i|i|i|r| | |i j|v|f|v|v| |f|f|v f|f|m| | |k|l| |i|]; simpl in R |- *; apply w_fmap.
    - apply w_slice_get; auto.
      + intros M1 tv1 U1 Hi A1. split; [exact clean0|]. split; [|exact I]. intros y [<-|[]]. exact A1.
      + intros _. nothing.
    - apply w_slice_index; auto. intros M1 tv1 j U1 A1. split; [exact clean0|]. split; [|exact I]. intros y [<-|[]]. exact A1.
    - unfold slice_get_cloned. destruct (Nat.ltb_spec i (sl_len x)) as [Hi|Hi]; [|apply w_ret; nothing].
      assert (A : avail M tv (sl_a x + i)) by (eapply pub_avail; eauto; lia). apply w_bind. apply w_core_get; [assumption| |intros; apply w_ret; nothing].
      intros M1 tv1 U1 C1. apply w_bind. apply w_cloned; [step|eapply up_avail; eauto|assumption|]. intros v M2 tv2 U2 _. apply w_ret. nothing.
    - apply w_slice_slice; auto. intros x' P'. split; [exact clean0|]. split; [|exact I]. intros y [<-|[]]. exact P'.
    - apply It. intros l M1 tv1 U1 N1 A1. split; [exact clean0|]. split; [|exact I]. intros y Hy. apply in_map_iff in Hy as (i & <- & Hi). simpl. auto.
    - apply w_bind. apply It. intros l M1 tv1 U1 N1 A1. apply w_clone_elems; auto. intros. nothing.
    - unfold slice_swap. destruct (slice_idx x i); [|apply w_ret; nothing]. destruct (slice_idx x j); [|apply w_ret; nothing]. apply w_swap; auto. intros. nothing.
    - apply w_bind. apply It. intros l M1 tv1 U1 N1 A1. apply w_fill; auto. intros. nothing.
    - apply w_bind. apply It. intros l M1 tv1 U1 N1 A1. apply w_fill_with; auto. intros. nothing.
    - apply w_bind. apply It. intros l M1 tv1 U1 N1 A1. apply w_position; auto. intros. nothing.
    - apply w_bind. apply w_bind. apply It. intros l M1 tv1 U1 N1 A1. apply w_position; auto. intros. apply w_ret. nothing.
    - apply w_bind. apply It. intros l M1 tv1 U1 N1 A1. apply w_clone_elems; auto. intros. nothing.
    - apply w_bind. apply It. intros l M1 tv1 U1 N1 A1. apply w_map_elems; auto. intros. nothing.
    - apply w_bind. apply It. intros l M1 tv1 U1 N1 A1. apply w_filter; auto. intros r M2 tv2 U2 A2. split; [exact clean0|]. split; [|exact I]. intros y Hy. apply in_map_iff in Hy as (i & <- & Hi). simpl. auto.
    - apply w_bind. apply It. intros l M1 tv1 U1 N1 A1. apply w_fold_elems; auto. intros. nothing.
    - apply w_reduce; auto. intros. nothing.
    - unfold slice_split_at. destruct (Nat.leb_spec m (sl_len x)); [|apply w_pan; [unfold badp; intuition discriminate|assumption]].
      apply w_bind. apply w_slice_slice; auto; [apply Specs.rng_ok; lia|]. intros x1 P1. apply w_bind. apply w_slice_slice; auto; [apply Specs.rng_ok; lia|]. intros x2 P2. apply w_ret.
      split; [exact clean0|]. split; [|exact I]. intros y [<-|[<-|[]]]; [exact P1|exact P2].
    - apply w_bind. apply w_slice_get; auto.
      + intros M1 tv1 U1 Hi A1. apply w_bind. apply w_slice_slice; auto; [apply Specs.rng_ok; lia|eapply up_pub; eauto|]. intros x1 P1. apply w_ret.
        split; [exact clean0|]. split; [|exact I]. intros y [<-|[<-|[]]]; [exact A1|exact P1].
      + intros _. apply w_ret. nothing.
    - unfold slice_split_last. destruct (sl_len x) as [|n] eqn:En; [apply w_ret; nothing|]. rewrite <- En in *.
      apply w_bind. apply w_slice_slice; auto; [apply Specs.rng_ok; lia|]. intros x1 P1. apply w_bind. apply w_slice_index; auto. intros M1 tv1 j U1 A1. apply w_ret.
      split; [exact clean0|]. split; [|exact I]. intros y [<-|[<-|[]]]; [exact A1|]. simpl. eapply up_pub; eauto.
    - unfold slice_chunks. destruct (Nat.ltb_spec 0 k) as [Hk|]; [|apply w_pan; [unfold badp; intuition discriminate|assumption]].
      apply (w_mapP _ _ _ _ _ (fun ab M tv => fst ab <= snd ab /\ pub M tv (sl_a x + sl_len x)) (fun x M tv => gok M tv (GSlice x)) tok0); auto.
      + intros ab M1 tv1 M2 tv2 U2 [A B]. split; [assumption|]. eapply up_pub; eauto.
      + intros b M1 tv1 M2 tv2 G U. exact (gok_up E ro _ _ _ _ _ U G).
      + intros ab M1 tv1 Q1 N1 [A B] H1. apply w_slice_slice; auto; [now apply Specs.rng_ok|]. intros x' P'. apply H1; [now apply up_refl|exact P'].
      + intros ab Hi. split; [eapply chunks_le; eauto|assumption].
      + intros xs M1 tv1 U1 A1. split; [exact clean0|]. split; [|exact I]. intros y Hy. apply in_map_iff in Hy as (i & <- & Hi). auto.
    - apply w_bind. apply It. intros l' M1 tv1 U1 N1 A1. apply w_eq_list; auto. intros. nothing.
    - apply w_bind. apply It. intros l' M1 tv1 U1 N1 A1. apply w_fmt; auto. intros. nothing.
    - unfold slice_get_ref. destruct (slice_idx x i) as [j|]; [|apply w_ret; nothing]. apply w_get_ref; auto. intros o M1 tv1 U1 A1. split; [exact clean0|]. split; [|exact I].
      destruct o as [e|]; [|intros ? []]. intros y [<-|[]]. auto.
    - apply w_bind. apply It. intros l' M1 tv1 U1 N1 A1. apply w_refs; auto; [intros i Hi; apply A1; assumption|]. intros r M2 tv2 U2 A2. split; [exact clean0|]. split; [|exact I]. intros y Hy. apply in_map_iff in Hy as (i & <- & Hi). auto.
  Qed.
  Lemma w_read o M tv :
    grows o = false -> now M tv -> allowed E ro false o -> (forall x, needs o = Some x -> gok M tv x) -> wp (post tv o) (op_prog E o) tok0 M tv.
  Proof.
    intros Ly N (Rg & Rm & Ru & _) Hg. pose proof clean1 as Cl. assert (Up : if ro then updates o = false else True) by (destruct ro; auto).
    assert (Rw : (if ro then true = false else True) -> ro = false) by (destruct ro; congruence).
    assert (It : forall (Q : list nat -> _ -> _ -> _ -> Prop), (forall l M' tv', up M tv M' tv' -> now M' tv' -> (forall i, In i l -> avail M' tv' i) -> Q l tok0 M' tv') -> wp Q vec_iter tok0 M tv).
    { intros Q H. apply w_vec_iter; auto. intros n M' tv' U P _ _. apply H; auto; [eapply up_now; eauto|now apply in_iter]. }
    assert (Bw : forall M1 tv1 n, up M tv M1 tv1 -> seen_wrtn M1 tv n -> seen_wrtn M tv n) by (intros M1 tv1 n U; apply back_wrtn; apply U).
    assert (Br : forall M1 tv1 i, up M tv M1 tv1 -> readable M1 tv i -> readable M tv i) by (intros M1 tv1 i U; apply back_readable; apply U).
    destruct o as [v|f|n it|f n|it n| | | | |i|i|i|i|rg| | | |i j|v|f|v|v| |f|f|v f|f|m| | |n|l| |i e|x e|i| |i|i f]; simpl in Up; cbn [op_prog]; try discriminate Ly.
    - apply w_fmap. apply w_len; [assumption|]. intros n M1 tv1 U1 P1 W1 X1. split; [exact clean0|]. split; [intros ? []|]. exists n. split; [reflexivity|]. split; [assumption|]. split; [assumption|]. eauto.
    - apply w_fmap. apply w_bind. apply w_len; [assumption|]. intros n M1 tv1 U1 P1 W1 X1. apply w_ret. nothing.
    - apply w_fmap. apply w_cap; [assumption|]. intros. nothing.
    - apply w_fmap. apply w_max; [assumption|]. intros. nothing.
    - apply w_fmap. apply w_get; [assumption| |].
      + intros M1 tv1 U1 A1 _. split; [exact clean0|]. split; [|reflexivity]. intros y [<-|[]]. exact A1.
      + intros M1 tv1 U1 X1. split; [exact clean0|]. split; [intros ? []|]. intros n' Hn Hi. specialize (X1 n' (Bw _ _ _ U1 Hn)). lia.
    - apply w_fmap. apply w_index; [assumption|assumption|]. intros M1 tv1 U1 A1. split; [exact clean0|]. split; [|exact I]. intros y [<-|[]]. exact A1.
    - apply w_fmap. apply w_get_cloned; [assumption|assumption| |].
      + intros v M1 tv1 U1 V1. split; [exact clean0|]. split; [intros ? []|]. exists (Some v). split; [reflexivity|]. split; [discriminate|]. intros w [= <-]. assumption.
      + intros M1 tv1 U1 X1. split; [exact clean0|]. split; [intros ? []|]. exists None. split; [reflexivity|]. split; [|discriminate]. intros X. exfalso. eauto.
    - apply w_fmap. apply w_get_cloned; [assumption|assumption| |].
      + intros v M1 tv1 U1 V1. split; [exact clean0|]. split; [intros ? []|]. exists (Some v). split; [reflexivity|]. split; [discriminate|]. intros w [= <-]. assumption.
      + intros M1 tv1 U1 X1. split; [exact clean0|]. split; [intros ? []|]. exists None. split; [reflexivity|]. split; [|discriminate]. intros X. exfalso. eauto.
    - apply w_fmap. apply w_slice; auto. intros x M1 tv1 U1 P1. split; [exact clean0|]. split; [|exact I]. intros y [<-|[]]. exact P1.
    - apply w_fmap. apply w_as_slice; auto. intros x M1 tv1 U1 P1. split; [exact clean0|]. split; [|exact I]. intros y [<-|[]]. exact P1.
    - apply w_fmap. apply w_vec_iter; [assumption|]. intros n M1 tv1 U1 P1 W1 X1. split; [exact clean0|]. split; [now apply gok_seq|]. exists n. split; [reflexivity|]. split; [assumption|]. split; [assumption|]. eauto.
    - apply w_fmap. apply w_bind. apply w_len; [assumption|]. intros n M1 tv1 U1 P1 W1 X1. apply w_bind. apply w_iter; [step|lia|apply P1|]. intros M2 tv2 U2. rewrite Nat.sub_0_r.
      apply w_clone_elems; [step|apply in_iter; eapply up_pub; eauto|assumption|]. intros. nothing.
    - apply w_fmap. apply w_swap; auto. intros. nothing.
    - apply w_fmap. apply w_bind. apply It. intros l M1 tv1 U1 N1 A1. apply w_fill; auto. intros. nothing.
    - apply w_fmap. apply w_bind. apply It. intros l M1 tv1 U1 N1 A1. apply w_fill_with; auto. intros. nothing.
    - apply w_fmap. apply w_bind. apply It. intros l M1 tv1 U1 N1 A1. apply w_position; auto. intros. nothing.
    - apply w_fmap. apply w_bind. apply w_bind. apply It. intros l M1 tv1 U1 N1 A1. apply w_position; auto. intros. apply w_ret. nothing.
    - apply w_fmap. apply w_bind. apply w_as_slice; auto. intros x M1 tv1 U1 P1. apply w_bind. apply w_slice_iter; [step|assumption|]. intros l M2 tv2 U2 A2. apply w_clone_elems; [step|assumption|assumption|]. intros. nothing.
    - apply w_fmap. apply w_bind. apply It. intros l M1 tv1 U1 N1 A1. apply w_map_elems; auto. intros. nothing.
    - apply w_fmap. apply w_bind. apply It. intros l M1 tv1 U1 N1 A1. apply w_filter; auto. intros r M2 tv2 U2 A2. split; [exact clean0|]. split; [|exact I]. intros y Hy. apply in_map_iff in Hy as (i & <- & Hi). simpl. auto.
    - apply w_fmap. apply w_bind. apply It. intros l M1 tv1 U1 N1 A1. apply w_fold_elems; auto. intros. nothing.
    - apply w_fmap. apply w_bind. apply w_as_slice; auto. intros x M1 tv1 U1 P1. apply w_reduce; [step|assumption|assumption|]. intros. nothing.
    - apply w_fmap. apply w_bind. apply w_len; [assumption|]. intros n M1 tv1 U1 P1 W1 X1. destruct (Nat.leb_spec m n); [|apply w_pan; [unfold badp; intuition discriminate|assumption]].
      apply w_bind. apply w_slice; [step|apply Specs.rng_ok; lia|assumption|]. intros x1 M2 tv2 U2 P2. apply w_bind. apply w_slice; [step|apply Specs.rng_from_ok|assumption|]. intros x2 M3 tv3 U3 P3. apply w_ret.
      split; [exact clean0|]. split; [|exact I]. intros y [<-|[<-|[]]]; simpl; [eapply up_pub; eauto|assumption].
    - apply w_fmap. apply w_bind. apply w_get; [assumption| |intros; apply w_ret; nothing]. intros M1 tv1 U1 A1 W1. apply w_bind. apply w_len; [step|]. intros n M2 tv2 U2 P2 W2 X2.
      apply w_bind. apply w_slice; [step|apply Specs.rng_ok; apply X2; assumption|assumption|]. intros x M3 tv3 U3 P3. apply w_ret.
      split; [exact clean0|]. split; [|exact I]. intros y [<-|[<-|[]]]; simpl; [apply (up_avail E ro M1 tv1); [eauto using up_trans|assumption]|assumption].
    - apply w_fmap. apply w_bind. apply w_len; [assumption|]. intros n M1 tv1 U1 P1 W1 X1. destruct n as [|n]; [apply w_ret; nothing|]. apply w_bind. apply w_slice; [step|apply Specs.rng_ok; lia|assumption|].
      intros x M2 tv2 U2 P2. apply w_bind. apply w_index; [step|assumption|]. intros M3 tv3 U3 A3. apply w_ret. split; [exact clean0|]. split; [|exact I]. intros y [<-|[<-|[]]]; simpl; [assumption|eapply up_pub; eauto].
    - apply w_fmap. unfold vec_chunks. destruct (Nat.ltb_spec 0 n) as [Hk|]; [|apply w_pan; [unfold badp; intuition discriminate|assumption]]. apply w_bind. apply w_len; [assumption|]. intros k M1 tv1 U1 P1 W1 X1.
      apply w_slices; [assumption| |step|now apply chunks_le|].
      + intros ab M2 tv2 Q N2 Hab H. apply w_slice; auto. now apply Specs.rng_ok.
      + intros xs M2 tv2 U2 A2. split; [exact clean0|]. split; [|exact I]. intros y Hy. apply in_map_iff in Hy as (i & <- & Hi). auto.
    - apply w_fmap. apply w_bind. apply It. intros l' M1 tv1 U1 N1 A1. apply w_eq_list; auto. intros. nothing.
    - apply w_fmap. apply w_bind. apply It. intros l' M1 tv1 U1 N1 A1. apply w_fmt; auto. intros. nothing.
    - apply w_eop; auto. apply (Hg _ eq_refl).
    - apply w_sop; auto. apply (Hg _ eq_refl).
    - apply w_fmap. apply w_get_ref; auto. intros o M1 tv1 U1 A1. split; [exact clean0|]. split; [|exact I]. destruct o as [e|]; [|intros ? []]. intros y [<-|[]]. auto.
    - apply w_fmap. apply w_bind. apply w_reserved; [assumption|]. intros n M1 tv1 U1 C1 _. apply w_bind. apply w_iter; [step|lia|assumption|]. intros M2 tv2 U2. rewrite Nat.sub_0_r.
      apply w_refs; [step|intros i Hi; apply in_seq in Hi; pose proof (up_cap _ _ _ _ _ _ U2); lia|]. intros r M3 tv3 U3 A3. split; [exact clean0|]. split; [|exact I]. intros y Hy. apply in_map_iff in Hy as (i & <- & Hi). auto.
    - assert (R : ro = true) by (destruct ro; [reflexivity|discriminate]). apply w_fmap. apply w_deref; [assumption|apply (Hg _ eq_refl)|assumption|]. intros v M1 tv1 U1 V1. split; [exact clean0|]. split; [intros ? []|]. exists v. auto.
    - discriminate.
  Qed.
  Lemma w_op o M tv :
    (grows o = true -> lossy = true) -> now M tv -> allowed E ro false o -> (forall x, needs o = Some x -> gok M tv x) -> wpq (post tv o) (ppost o) (op_prog E o) tok0 M tv.
  Proof.
    intros Ly N Al Hg. destruct (grows o) eqn:Gr.
    2: { eapply wp_mono; [| |apply (w_read o M tv Gr N Al Hg)]; [auto|]. intros m L M' tv' H. split; [assumption|]. congruence. }
    specialize (Ly eq_refl). destruct o as [v|f|n it|f n|it n| | | | |i|i|i|i|rg| | | |i j|v|f|v|v| |f|f|v f|f|m| | |n|l| |i e|x e|i| |i|i f]; try discriminate Gr; cbn [op_prog].
    - apply w_fmap. apply w_bind. apply w_take; [assumption|]. intros b M1 tv1 U1 B1 W1 R1. apply w_bind. apply w_single; [step|intros; now apply pp_max|]. intros f M2 tv2 U2 C2. apply w_bind. apply w_init; [step|assumption|].
      intros M3 tv3 U3 A3 V3. apply w_ret. assert (U13 : up M1 tv1 M3 tv3) by eauto using up_trans. replace (S b) with (b + request (OPush v)) by (simpl; lia).
      eapply post_grow; [exact U13|assumption|assumption|exact I|]. intros [|j] Hj; [|simpl in Hj; lia]. rewrite Nat.add_0_r. split; [assumption|]. exists v. split; [reflexivity|assumption].
    - apply w_fmap. apply w_bind. apply w_take; [assumption|]. intros b M1 tv1 U1 B1 W1 R1. apply w_bind. apply w_chkq; [intros _; split; [split; [unfold badp; intuition discriminate|now apply clean_own]|intros _; left; right; eauto]|]. intros v Hv.
      apply w_bind. apply w_single; [step|intros; now apply pp_max|]. intros f' M2 tv2 U2 C2. apply w_bind. apply w_init; [step|assumption|].
      intros M3 tv3 U3 A3 V3. apply w_ret. assert (U13 : up M1 tv1 M3 tv3) by eauto using up_trans. replace (S b) with (b + request (OPushFor f)) by (simpl; lia).
      eapply post_grow; [exact U13|assumption|assumption|exact I|]. intros [|j] Hj; [|simpl in Hj; lia]. rewrite Nat.add_0_r. split; [assumption|]. exists v. split; [exact Hv|assumption].
    - apply w_extend; auto.
    - apply w_fmap. apply w_bind. apply w_take; [assumption|]. intros b M1 tv1 U1 B1 W1 R1. apply w_bind. apply w_buffer; [step|assumption|intros; now apply pp_max|].
      intros f' M2 tv2 U2 C2. change n with (request (OExtendFor f n)) in B1, C2.
      assert (PO : forall m j k M3 tv3, up M2 tv2 M3 tv3 -> m = PShortIter \/ m = PClosure \/ m = PIterLen -> ppost (OExtendFor f n) m (own j k f') M3 tv3).
      { intros m j k M3 tv3 U3 Hm. apply (pp_own _ m j k f' M2 tv2 M3 tv3 b); auto. eapply block_le; eauto. apply U2. }
      apply w_bind. apply w_chkq; [intros _; apply PO; [apply up_refl; step|tauto]|]. intros [n' it] Hv. simpl fst. simpl snd.
      destruct (Nat.eqb_spec n' n) as [->|]; [|apply w_fail; apply PO; [apply up_refl; step|tauto]].
      apply w_bind. apply w_items; [step|assumption|intros; apply PO; [assumption|tauto]|]. intros M3 tv3 U3 A3. apply w_ret.
      assert (U13 : up M1 tv1 M3 tv3) by eauto using up_trans. change n with (request (OExtendFor f n)). eapply post_grow; [exact U13|assumption|assumption|exact I|].
      intros j Hj. destruct (A3 j Hj) as (X & v & Y & Z). split; [assumption|]. exists v. split; [|assumption]. exists it. auto.
    - apply w_extend; auto.
  Qed.
End WOps.
