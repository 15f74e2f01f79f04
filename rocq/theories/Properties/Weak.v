(** * C40: the orderings of the code are strong enough.

    All theorems are about every execution of the release/acquire view machine of [RA/Weak.v]: relaxed
    loads may return any value that is not older than what the thread already knows, and only the
    [Acquire]/[Release] pairs of the code transfer knowledge between threads. *)

From Coq Require Import List Arith Bool Lia.
From Verif.Model Require Import Prog Mem Deps State Elem Vec Excl Machine.
From Verif Require Import Client.
From Verif.RA Require Import Weak WInv WStep WSpecs WOps WSound.
From Verif.Properties Require Import C33 Examples.
Import ListNotations.

Section C40.
  Context {V : Type} (E : env V) (ro : bool) (l0 : list V) (c0 m0 : nat).
  Notation wexecution := (wexecution E ro l0 c0 m0).
  Implicit Types (c : wcfg V) (x y : wresult V).

  (** ** Safety.  No data race, no access out of bounds or to an uninitialised or twice initialised
      element, no invalid scan range, and no store that could come before an existing one. *)
  Theorem C40_no_fault c l f : wexecution c -> wclient E ro c l -> wstep E c l <> WFault f.
  Proof. apply execution_safe. Qed.

  (** The internal checks ("an element must always have a value", the growth of the storage, and so on) never fail. *)
  Theorem C40_no_panic c id o m : wexecution c -> In (id, o, m) (w_panics c) -> m <> PHasValue /\ m <> PSet /\ m <> PUpdate /\ m <> PGrow.
  Proof.
    intros H Hin. destruct (execution_SI E ro _ _ _ _ H) as (EOK & g & S & B). pose proof (proj1 (si_pan _ _ _ _ S _ _ _ Hin)) as X. unfold badp in X. tauto.
  Qed.

  (** A thread with an unfinished call can always make a step. *)
  Theorem C40_enabled c t z : wexecution c -> wlookup t (w_run c) = Some z -> exists k c', wstep E c (WStep t k) = WNext c'.
  Proof.
    intros H Lk. destruct (execution_SI E ro _ _ _ _ H) as (EOK & g & S & B). destruct (thread_enabled E ro c g t z S Lk) as (k & Hk). exists k.
    pose proof (execution_safe E ro l0 c0 m0 c (WStep t k)) as Sf. destruct (wstep E c (WStep t k)) as [c'|f|] eqn:St; [eauto| |congruence].
    exfalso. apply (Sf f H); [exact I|reflexivity].
  Qed.

  (** ** What [before] means: the knowledge of a thread only grows (until the next [clear]), a call
      starts with the knowledge of its thread, and [WSync t u] gives [t] the knowledge of [u]. *)
  Definition quiet c (l : wlabel V) : Prop := wclient E ro c l /\ l <> WClear.
  Lemma quiet_reach c c' : wexecution c -> wreach E quiet c c' -> wexecution c' /\ forall t, vle (w_view c t) (w_view c' t).
  Proof.
    intros H R. induction R as [|d l d' R IH [Q Nl] St]; [split; [assumption|intros; apply vle_refl]|]. destruct IH as [H1 H2].
    assert (Hd : wexecution d') by (destruct H1 as (A1 & A2 & A3 & A4 & A5); repeat (split; [assumption|]); eapply wreach_step; eauto).
    split; [assumption|]. intros t. destruct (execution_SI E ro _ _ _ _ H1) as (EOK & g & S & B). eapply vle_trans; [apply H2|]. eapply step_views; eauto.
  Qed.
  Lemma returned_view c t k c1 x : wstep E c (WStep t k) = WNext c1 -> w_res c1 = w_res c ++ [x] -> r_to x = w_view c1 t.
  Proof.
    intros St Hr. assert (No : w_res c <> w_res c ++ [x]) by (intros e; apply (f_equal (@length _)) in e; rewrite app_length in e; simpl in e; lia).
    simpl in St. unfold wstep_thread in St. destruct (wlookup t (w_run c)) as [z|]; [|discriminate]. destruct (wc_prog z).
    - injection St as <-. simpl in *. apply app_inv_head in Hr. injection Hr as <-. reflexivity.
    - injection St as <-. simpl in Hr. congruence.
    - destruct (wexec E (wc_id z) a k (w_mem c) (w_view c t)); try discriminate. injection St as <-. simpl in Hr. congruence.
    - destruct (wexec E (wc_id z) a k (w_mem c) (w_view c t)) as [w| |]; try discriminate. destruct (again w); injection St as <-; simpl in Hr; congruence.
  Qed.
  Theorem C40_program_order c t k c1 x c2 o from c3 z :
    wexecution c -> wstep E c (WStep t k) = WNext c1 -> w_res c1 = w_res c ++ [x] -> wreach E quiet c1 c2 ->
    wstep E c2 (WInv t o from) = WNext c3 -> wlookup t (w_run c3) = Some z -> vle (r_to x) (wc_from z).
  Proof.
    intros H St Hr R Si Lk. assert (H1 : wexecution c1) by (destruct H as (A1 & A2 & A3 & A4 & A5); repeat (split; [assumption|]); eapply wreach_step; eauto; exact I).
    destruct (quiet_reach _ _ H1 R) as [_ Le]. pose proof (returned_view _ _ _ _ _ St Hr) as Hx.
    rewrite Hx. simpl in Si. destruct (wlookup t (w_run c2)); [discriminate|]. destruct (fetch _ _ _) as [v|]; [|discriminate]. injection Si as <-. simpl in Lk. rewrite Nat.eqb_refl in Lk. injection Lk as <-. simpl.
    eapply vle_trans; [apply Le|apply vle_joinl].
  Qed.
  Theorem C40_sync_order c t k c1 x c2 u c3 c4 o from c5 z :
    wexecution c -> wstep E c (WStep t k) = WNext c1 -> w_res c1 = w_res c ++ [x] -> wreach E quiet c1 c2 ->
    wstep E c2 (WSync u t) = WNext c3 -> wreach E quiet c3 c4 -> wstep E c4 (WInv u o from) = WNext c5 -> wlookup u (w_run c5) = Some z -> vle (r_to x) (wc_from z).
  Proof.
    intros H St Hr R Sy R' Si Lk. assert (H1 : wexecution c1) by (destruct H as (A1 & A2 & A3 & A4 & A5); repeat (split; [assumption|]); eapply wreach_step; eauto; exact I).
    destruct (quiet_reach _ _ H1 R) as [H2 Le]. assert (H3 : wexecution c3) by (destruct H2 as (A1 & A2 & A3 & A4 & A5); repeat (split; [assumption|]); eapply wreach_step; eauto; exact I).
    destruct (quiet_reach _ _ H3 R') as [H4 Le'].
    pose proof (returned_view _ _ _ _ _ St Hr) as Hx.
    rewrite Hx. apply vle_trans with (w_view c2 t); [apply Le|]. apply vle_trans with (w_view c3 u).
    - simpl in Sy. injection Sy as <-. simpl. unfold upd. rewrite Nat.eqb_refl. apply vle_join_r.
    - apply vle_trans with (w_view c4 u); [apply Le'|]. simpl in Si. destruct (wlookup u (w_run c4)); [discriminate|]. destruct (fetch _ _ _) as [v|]; [|discriminate]. injection Si as <-. simpl in Lk. rewrite Nat.eqb_refl in Lk. injection Lk as <-. simpl. apply vle_joinl.
  Qed.

  (** ** Growth *)
  Lemma growth c x : wexecution c -> In x (w_res c) -> grows (r_op x) = true ->
    exists b, r_ret x = RNat b /\ block (r_id x) (w_mem c) b (request (r_op x)) /\ stored ro (w_mem c) (r_to x) (r_op x) b.
  Proof.
    intros H Hin Gr. destruct (execution_SI E ro _ _ _ _ H) as (EOK & g & S & B). destruct (si_res _ _ _ _ S x Hin) as (_ & _ & _ & _ & Op).
    destruct (r_op x); try discriminate Gr; exact Op.
  Qed.
  (** Every growth call that returned gives the first of its positions, and no two calls got the same
      position. *)
  Theorem C40_unique c j k x y : wexecution c -> nth_error (w_res c) j = Some x -> nth_error (w_res c) k = Some y -> j <> k -> grows (r_op x) = true -> grows (r_op y) = true ->
    exists a b, r_ret x = RNat a /\ r_ret y = RNat b /\ (a + request (r_op x) <= b \/ b + request (r_op y) <= a).
  Proof.
    intros H Hx Hy Ne Gx Gy. destruct (execution_SI E ro _ _ _ _ H) as (EOK & g & S & B).
    destruct (growth c x H (nth_error_In _ _ Hx) Gx) as (a & Ra & (k1 & n1 & p1 & A1 & A2 & A3 & A4 & A5) & _).
    destruct (growth c y H (nth_error_In _ _ Hy) Gy) as (b & Rb & (k2 & n2 & p2 & B1 & B2 & B3 & B4 & B5) & _).
    exists a, b. repeat (split; [assumption|]). assert (Ids : r_id x <> r_id y).
    { intros e. apply Ne. apply (proj1 (NoDup_nth_error (map r_id (w_res c))) (ni_res _ (si_ni _ _ _ _ S))).
      - apply nth_error_Some. rewrite nth_error_map, Hx. discriminate.
      - rewrite !nth_error_map, Hx, Hy. simpl. now rewrite e. }
    assert (k1 <> k2) by (intros ->; rewrite A3 in B3; injection B3 as <-; congruence). pose proof (wi_resv _ _ _ _ (si_wi _ _ _ _ S)) as Mo.
    assert (k1 < k2 \/ k2 < k1) as [L|L] by lia.
    - left. rewrite <- A4, <- B2. apply (Mo (Datatypes.S k1) k2); auto.
    - right. rewrite <- B4, <- A2. apply (Mo (Datatypes.S k2) k1); auto.
  Qed.
  (** Positions never exceed what was asked for since the last [clear]. *)
  Theorem C40_bounded c x b : wexecution c -> In x (w_res c) -> grows (r_op x) = true -> r_ret x = RNat b -> b + request (r_op x) <= w_req c.
  Proof.
    intros H Hin Gr Rb. destruct (execution_SI E ro _ _ _ _ H) as (EOK & g & S & B). destruct (growth c x H Hin Gr) as (a & Ra & (k & n & p & A1 & A2 & A3 & A4 & A5) & _).
    rewrite Ra in Rb. injection Rb as <-. rewrite <- A4. pose proof (b_le _ _ B) as Hle. transitivity (latest (m_resv (w_mem c))); [|lia].
    unfold latest, last_ts. assert (Datatypes.S k < length (m_resv (w_mem c))) by (apply nth_error_Some; congruence).
    destruct (nth_error (m_resv (w_mem c)) (length (m_resv (w_mem c)) - 1)) as [m|] eqn:Q; [|apply nth_error_None in Q; lia].
    apply (wi_resv _ _ _ _ (si_wi _ _ _ _ S) (Datatypes.S k) (length (m_resv (w_mem c)) - 1)); auto. lia.
  Qed.

  (** ** What a thread sees *)
  Lemma facts c : wexecution c -> good E ro (w_mem c) /\ forall x, In x (w_res c) -> res_ok ro (w_mem c) x.
  Proof. intros H. destruct (execution_SI E ro _ _ _ _ H) as (EOK & g & S & B). split; [exists g; apply S|apply S]. Qed.
  Lemma before_up c x y : wexecution c -> In x (w_res c) -> In y (w_res c) -> before x y -> good E ro (w_mem c) /\ vok (w_mem c) (r_to x) /\ vok (w_mem c) (r_from y) /\ vle (r_to x) (r_from y).
  Proof. intros H Hx Hy Hb. destruct (facts c H) as [G F]. destruct (F x Hx) as (_ & O & _). destruct (F y Hy) as (O' & _). auto. Qed.

  (** An element that a growth call stored is there for every call after it: [get_cloned] returns a
      value, and under the grow-and-read discipline it returns the value stored. *)
  Theorem C40_visible c x y b j i : wexecution c -> In x (w_res c) -> In y (w_res c) -> before x y ->
    grows (r_op x) = true -> r_ret x = RNat b -> j < request (r_op x) -> i = b + j -> (r_op y = OGetCloned i \/ r_op y = OGetCopied i) ->
    exists v, r_ret y = ROptVal (Some v) /\ (ro = true -> stores (r_op x) b j v).
  Proof.
    intros H Hx Hy Hb Gr Rb Hj -> Ho. destruct (before_up _ _ _ H Hx Hy Hb) as (G & Ox & Oy & Le). destruct (growth c x H Hx Gr) as (b' & Rb' & _ & St). rewrite Rb' in Rb. injection Rb as ->.
    destruct (St j Hj) as [[Av Sr] (v & Sv & Vv)]. destruct (facts c H) as [_ F]. destruct (F y Hy) as (_ & _ & _ & _ & Op).
    assert (X : exists z, r_ret y = ROptVal z /\ (readable (w_mem c) (r_from y) (b + j) -> z <> None) /\ (forall v, z = Some v -> ro = true -> wv (m_slots (w_mem c) (b + j)) = Some v)) by (destruct Ho as [Ho|Ho]; rewrite Ho in Op; exact Op).
    destruct X as ([w|] & Rz & Nz & Vz).
    - exists w. split; [assumption|]. intros R. specialize (Vv R). specialize (Vz w eq_refl R). change (wv (m_slots (w_mem c) (b + j)) = Some v) in Vv. congruence.
    - exfalso. apply Nz; [|reflexivity]. split; [eapply avail_up; eauto using mle_refl|eapply seen_resv_up; eauto using mle_refl].
  Qed.

  Definition sizes x (n : nat) : Prop := (r_op x = OLen /\ r_ret x = RNat n) \/ (r_op x = OIter /\ r_ret x = RElems (seq 0 n)).
  Lemma seq_len a b : seq 0 a = seq 0 b -> a = b.
  Proof. intros H. rewrite <- (seq_length a 0), <- (seq_length b 0). now rewrite H. Qed.
  Lemma sizes_ok c x n : wexecution c -> In x (w_res c) -> sizes x n ->
    pub (w_mem c) (r_to x) n /\ seen_wrtn (w_mem c) (r_to x) n /\ forall n', seen_wrtn (w_mem c) (r_from x) n' -> n' <= n.
  Proof.
    intros H Hx Hs. destruct (facts c H) as [_ F]. destruct (F x Hx) as (_ & _ & _ & _ & Op).
    destruct Hs as [[Ho Hr]|[Ho Hr]]; rewrite Ho, Hr in Op; destruct Op as (k & Ek & Op); [injection Ek as <-; exact Op|injection Ek as Ek; apply seq_len in Ek as <-; exact Op].
  Qed.
  (** [len] and [iter]: every counted position holds a value, and the length never goes back. *)
  Theorem C40_len c x : wexecution c -> In x (w_res c) -> r_op x = OLen -> exists n, r_ret x = RNat n /\ n <= w_req c /\ forall i, i < n -> wv (m_slots (w_mem c) i) <> None.
  Proof.
    intros H Hx Ho. destruct (facts c H) as [G F]. destruct (F x Hx) as (_ & Ot & _ & _ & Op). rewrite Ho in Op. destruct Op as (n & Hr & (P1 & P2 & P3) & _). exists n. split; [assumption|]. split.
    - destruct (execution_SI E ro _ _ _ _ H) as (EOK & g & S & B). pose proof (b_le _ _ B) as Hle. transitivity (latest (m_resv (w_mem c))); [|lia]. destruct P2 as (m & A & C). transitivity (mval m); [assumption|].
      unfold latest, last_ts. assert (v_resv (r_to x) < length (m_resv (w_mem c))) by (apply nth_error_Some; congruence).
      destruct (nth_error (m_resv (w_mem c)) (length (m_resv (w_mem c)) - 1)) as [m'|] eqn:Q; [|apply nth_error_None in Q; lia].
      apply (wi_resv _ _ _ _ (si_wi _ _ _ _ S) (v_resv (r_to x)) (length (m_resv (w_mem c)) - 1)); auto. lia.
    - intros i Hi. eapply some_val; eauto.
  Qed.
  Theorem C40_monotone c x y n n' : wexecution c -> In x (w_res c) -> In y (w_res c) -> before x y -> sizes x n -> sizes y n' -> n <= n'.
  Proof.
    intros H Hx Hy Hb Sx Sy. destruct (before_up _ _ _ H Hx Hy Hb) as (G & Ox & Oy & Le). destruct (sizes_ok _ _ _ H Hx Sx) as (_ & A & _). destruct (sizes_ok _ _ _ H Hy Sy) as (_ & _ & B).
    apply B. eapply seen_wrtn_up; eauto using mle_refl.
  Qed.
  (** [iter] returns all positions below its length. *)
  Theorem C40_iter c x : wexecution c -> In x (w_res c) -> r_op x = OIter -> exists n, r_ret x = RElems (seq 0 n).
  Proof. intros H Hx Ho. destruct (facts c H) as [_ F]. destruct (F x Hx) as (_ & _ & _ & _ & Op). rewrite Ho in Op. destruct Op as (n & Hr & _). eauto. Qed.
  (** A position below a length seen before is found by [get] and read by [get_cloned]. *)
  Theorem C40_get c x y n i : wexecution c -> In x (w_res c) -> In y (w_res c) -> before x y -> sizes x n -> i < n -> r_op y = OGet i -> r_ret y = ROptElem (Some i).
  Proof.
    intros H Hx Hy Hb Sx Hi Ho. destruct (before_up _ _ _ H Hx Hy Hb) as (G & Ox & Oy & Le). destruct (sizes_ok _ _ _ H Hx Sx) as (_ & A & _). destruct (facts c H) as [_ F]. destruct (F y Hy) as (_ & _ & _ & _ & Op).
    rewrite Ho in Op. apply (Op n); [|assumption]. eapply seen_wrtn_up; eauto using mle_refl.
  Qed.
  Theorem C40_get_cloned c x y n i : wexecution c -> In x (w_res c) -> In y (w_res c) -> before x y -> sizes x n -> i < n -> (r_op y = OGetCloned i \/ r_op y = OGetCopied i) -> exists v, r_ret y = ROptVal (Some v).
  Proof.
    intros H Hx Hy Hb Sx Hi Ho. destruct (before_up _ _ _ H Hx Hy Hb) as (G & Ox & Oy & Le). destruct (sizes_ok _ _ _ H Hx Sx) as (A & _). destruct (facts c H) as [_ F]. destruct (F y Hy) as (_ & _ & _ & _ & Op).
    assert (X : exists z, r_ret y = ROptVal z /\ (readable (w_mem c) (r_from y) i -> z <> None)) by (destruct Ho as [Ho|Ho]; rewrite Ho in Op; destruct Op as (z & B1 & B2 & _); eauto).
    destruct X as ([w|] & Rz & Nz); [eauto|]. exfalso. apply Nz; [|reflexivity]. assert (P : pub (w_mem c) (r_from y) n) by (eapply pub_up; eauto using mle_refl). destruct P as (P1 & (m & P2 & P2') & P3).
    split; [split; [lia|auto]|]. exists m. split; [assumption|lia].
  Qed.

  (** Grow-and-read: all calls that read a position get the same value, whichever thread they run in,
      whether ordered or not, and it is the value that the growth call stored there. *)
  Definition reads x (i : nat) (v : V) : Prop :=
    ((r_op x = OGetCloned i \/ r_op x = OGetCopied i) /\ r_ret x = ROptVal (Some v)) \/
    ((r_op x = OElem i ECloned \/ r_op x = OElem i ECopied \/ r_op x = ODeref i) /\ r_ret x = RVal v).
  Lemma reads_ok c x i v : wexecution c -> ro = true -> In x (w_res c) -> reads x i v -> wv (m_slots (w_mem c) i) = Some v.
  Proof.
    intros H R Hx Hr. destruct (facts c H) as [_ F]. destruct (F x Hx) as (_ & _ & _ & _ & Op).
    destruct Hr as [[[Ho|Ho] Hr]|[[Ho|[Ho|Ho]] Hr]]; rewrite Ho, Hr in Op.
    - destruct Op as (z & [= <-] & _ & A). now apply A.
    - destruct Op as (z & [= <-] & _ & A). now apply A.
    - destruct Op as (z & [= <-] & A). now apply A.
    - destruct Op as (z & [= <-] & A). now apply A.
    - destruct Op as (z & [= <-] & A). now apply A.
  Qed.
  Theorem C40_same_value c x y i v w : wexecution c -> ro = true -> In x (w_res c) -> In y (w_res c) -> reads x i v -> reads y i w -> v = w.
  Proof. intros H R Hx Hy Rx Ry. pose proof (reads_ok _ _ _ _ H R Hx Rx). pose proof (reads_ok _ _ _ _ H R Hy Ry). congruence. Qed.
  Theorem C40_stored_value c x y b j v : wexecution c -> ro = true -> In x (w_res c) -> In y (w_res c) -> grows (r_op x) = true -> r_ret x = RNat b -> j < request (r_op x) -> reads y (b + j) v ->
    stores (r_op x) b j v.
  Proof.
    intros H R Hx Hy Gr Rb Hj Ry. pose proof (reads_ok _ _ _ _ H R Hy Ry) as A. destruct (growth c x H Hx Gr) as (b' & Rb' & _ & St). rewrite Rb' in Rb. injection Rb as ->.
    destruct (St j Hj) as [_ (w & Sw & Vw)]. specialize (Vw R). change (wv (m_slots (w_mem c) (b + j)) = Some w) in Vw. congruence.
  Qed.
End C40.

(** ** Concrete executions: as in [Examples.v].  [At t k]: one step, reading message [k]; [Go t n]: at
    most [n] steps of thread [t], always reading the newest message. *)
Inductive witem (V : Type) : Type := Wl (l : wlabel V) | Go (t n : nat).
Arguments Wl {V}.
Arguments Go {V}.
Section Play.
  Context {V : Type} (E : env V) (ro : bool).
  Definition wokb (c : wcfg V) (l : wlabel V) : bool :=
    match l with
    | WInv _ o _ => ochk E && negb (mut_refs o) && (if ro then negb (updates o) else negb (derefs o)) && (w_req c + request o <? wmod E)
    | WClear => match w_panics c with [] => true | _ => false end
    | _ => true
    end.
  Definition wgo (c : wcfg V) (l : wlabel V) : option (wcfg V) :=
    if wokb c l then match wstep E c l with WNext c' => Some c' | _ => None end else None.
  Definition fresh (c : wcfg V) (t : nat) : nat :=
    match wlookup t (w_run c) with
    | Some z => match wc_prog z with Act a _ | Spin a _ _ => newest a (w_mem c) | _ => 0 end
    | None => 0
    end.
  Fixpoint wmore (n : nat) (c : wcfg V) (t : nat) : option (wcfg V) :=
    match n, wlookup t (w_run c) with
    | S n', Some _ => match wgo c (WStep t (fresh c t)) with Some c' => wmore n' c' t | None => None end
    | _, _ => Some c
    end.
  Fixpoint wplay (c : wcfg V) (s : list (witem V)) : option (wcfg V) :=
    match s with
    | [] => Some c
    | Wl l :: s' => match wgo c l with Some c' => wplay c' s' | None => None end
    | Go t n :: s' => match wmore n c t with Some c' => wplay c' s' | None => None end
    end.
  Lemma wokb_client c l : wokb c l = true -> wclient E ro c l.
  Proof.
    destruct l as [t o from|t k|t u| |n]; simpl; auto.
    - rewrite !andb_true_iff, Nat.ltb_lt. intros (((H1 & H2) & H3) & H4). apply negb_true_iff in H2. split; [|assumption]. split; [|split; [assumption|split; [|discriminate]]].
      + unfold ranges_ok, range_ok. destruct o; auto. destruct o; auto.
      + destruct ro; now apply negb_true_iff.
    - destruct (w_panics c); [contradiction|discriminate].
  Qed.
  Lemma wgo_reach c0 c l c' : wreach E (wclient E ro) c0 c -> wgo c l = Some c' -> wreach E (wclient E ro) c0 c'.
  Proof.
    unfold wgo. intros R. destruct (wokb c l) eqn:O; [|discriminate]. destruct (wstep E c l) eqn:St; try discriminate. intros [= <-]. eapply wreach_step; eauto. now apply wokb_client.
  Qed.
  Lemma wmore_reach t n : forall c0 c c', wreach E (wclient E ro) c0 c -> wmore n c t = Some c' -> wreach E (wclient E ro) c0 c'.
  Proof.
    induction n as [|n IH]; intros c0 c c' R; cbn [wmore]; [now intros [= <-]|]. destruct (wlookup t (w_run c)); [|now intros [= <-]].
    destruct (wgo c (WStep t (fresh c t))) as [d|] eqn:G; [|discriminate]. apply IH. eapply wgo_reach; eauto.
  Qed.
  Lemma wplay_reach s : forall c0 c c', wreach E (wclient E ro) c0 c -> wplay c s = Some c' -> wreach E (wclient E ro) c0 c'.
  Proof.
    induction s as [|[l|t n] s IH]; intros c0 c c' R; cbn [wplay]; [now intros [= <-]| |].
    - destruct (wgo c l) as [d|] eqn:G; [|discriminate]. apply IH. eapply wgo_reach; eauto.
    - destruct (wmore n c t) as [d|] eqn:G; [|discriminate]. apply IH. eapply wmore_reach; eauto.
  Qed.
End Play.
Definition wex (ro : bool) (l0 : list nat) (s : list (witem nat)) : option (wcfg nat) := wplay ex ro (wstart l0 2 8) s.
Definition wfinal (ro : bool) (l0 : list nat) (s : list (witem nat)) : wcfg nat := match wex ro l0 s with Some c => c | None => wstart l0 2 8 end.
Definition wpossible (ro : bool) (l0 : list nat) (s : list (witem nat)) : bool := (length l0 <=? 2) && match wex ro l0 s with Some _ => true | None => false end.
Lemma wex_execution ro l0 s : wpossible ro l0 s = true -> wexecution ex ro l0 2 8 (wfinal ro l0 s).
Proof.
  unfold wpossible, wfinal, wex. rewrite andb_true_iff, Nat.leb_le. intros [H G]. destruct (wplay ex ro (wstart l0 2 8) s) as [c|] eqn:P; [|discriminate].
  assert (2 < wmod ex) by (apply Nat.ltb_lt; vm_compute; reflexivity). split; [exact ex_ok|]. split; [exact ex_cap|]. split; [assumption|]. split; [lia|]. eapply wplay_reach; [apply wreach_start|exact P].
Qed.
Definition wcalls (t : nat) (o : op nat) (from : nat) : list (witem nat) := [Wl (WInv t o from); Go t 100].
Definition answers (c : wcfg nat) : list (ret nat) := map r_ret (w_res c).

(** Two threads, no synchronisation outside of the vector. Thread 1 pushes 7, thread 2 asks for the
    length (and gets 1 through the state of the element), then reads the element. *)
Definition ex1 : list (witem nat) := wcalls 1 (OPush 7) 0 ++ wcalls 2 OLen 0 ++ wcalls 2 (OGetCloned 0) 0 ++ wcalls 2 OIter 0 ++ wcalls 2 (OGet 0) 0.
Example ex1_ok : wexecution ex true [] 2 8 (wfinal true [] ex1) /\ answers (wfinal true [] ex1) = [RNat 0; RNat 1; ROptVal (Some 7); RElems [0]; ROptElem (Some 0)].
Proof. split; [apply wex_execution; vm_compute; reflexivity|vm_compute; reflexivity]. Qed.
(** Stale: thread 2 reads the old value 0 of the reservation counter although the push returned
    before in real time; after [WSync] it no longer can ([C40_visible]). *)
Definition ex2 : list (witem nat) := wcalls 1 (OPush 7) 0 ++ [Wl (WInv 2 (OGetCloned 0) 0); Wl (WStep 2 0); Go 2 100].
Example ex2_stale : wexecution ex true [] 2 8 (wfinal true [] ex2) /\ answers (wfinal true [] ex2) = [RNat 0; ROptVal None].
Proof. split; [apply wex_execution; vm_compute; reflexivity|vm_compute; reflexivity]. Qed.
Example ex2_synced : wpossible true [] (wcalls 1 (OPush 7) 0 ++ [Wl (WSync 2 1); Wl (WInv 2 (OGetCloned 0) 0); Wl (WStep 2 0)]) = false /\
  answers (wfinal true [] (wcalls 1 (OPush 7) 0 ++ [Wl (WSync 2 1)] ++ wcalls 2 (OGetCloned 0) 0)) = [RNat 0; ROptVal (Some 7)].
Proof. split; vm_compute; reflexivity. Qed.
(** [len] of thread 2 may be stale as well, even while thread 1 sees its own element. *)
Definition ex3 : list (witem nat) := wcalls 1 (OPush 7) 0 ++ wcalls 1 OLen 0 ++ [Wl (WInv 2 OLen 0); Wl (WStep 2 0); Wl (WStep 2 0); Wl (WStep 2 0); Go 2 100].
Example ex3_stale : wexecution ex true [] 2 8 (wfinal true [] ex3) /\ answers (wfinal true [] ex3) = [RNat 0; RNat 1; RNat 0].
Proof. split; [apply wex_execution; vm_compute; reflexivity|vm_compute; reflexivity]. Qed.
(** Two pushes and an extend of different threads, an element that is replaced, and [clear]. *)
Definition ex4 : list (witem nat) :=
  [Wl (WInv 1 (OPush 7) 0); Wl (WInv 2 (OExtendN [Some 1; Some 2; Some 3] 3) 0); Go 2 1; Go 1 1; Wl (WInv 3 (OPush 9) 0); Go 3 4; Go 2 100; Go 1 100; Go 3 100] ++
  wcalls 3 (OGet 0) 0 ++ wcalls 4 (OElem 0 (EReplace 5)) 3 ++ wcalls 4 (OElem 0 ECloned) 3.
Example ex4_ok : wexecution ex false [] 2 8 (wfinal false [] ex4) /\
  answers (wfinal false [] ex4) = [RNat 0; RNat 3; RNat 4; ROptElem (Some 0); RVal 1; RVal 5].
Proof. split; [apply wex_execution; vm_compute; reflexivity|vm_compute; reflexivity]. Qed.

(** ** The orderings are needed: with weaker ones the machine does find faults.

    [spawn c t p]: thread [t] runs [p] instead of a method of the library. *)
Definition spawn (c : wcfg nat) (t : nat) (p : prog nat (ret nat)) : wcfg nat :=
  WCfg (w_mem c) (w_view c) ((t, WCall (w_next c) OLen (w_view c t) p) :: w_run c) (S (w_next c)) (w_res c) (w_panics c) (w_req c).
Definition wend (c : wcfg nat) (t : nat) : option (wcfg nat) := wmore ex true 100 c t.
Local Open Scope prog_scope.
(** [len] with other orderings for the load of [len_written] and for its [fetch_max] *)
Definition len_with (a r : ord) : prog nat nat :=
  let! len := doo (LoadWrtn a) in
  let! cap := core_capacity in
  let! len_reserved := doo (LoadResv Relaxed) in
  let until := if len_reserved <=? cap then len_reserved else cap in
  core_iter_over_range len until ;;
  let! num_pushed := count_pushed len (until - len) in
  let new_len := len + num_pushed in
  doo (MaxWrtn new_len r) ;;
  Ret new_len.
Definition run_len (a r : ord) : prog nat (ret nat) := fmap RNat (len_with a r).
(** thread 1 pushes three elements and computes the length; thread 2 computes the length *)
Definition pushed3 : wcfg nat := wfinal true [] (wcalls 1 (OPush 7) 0 ++ wcalls 1 (OPush 8) 0 ++ wcalls 1 (OPush 9) 0).
Definition after_len (a r : ord) : option (wcfg nat) := wend (spawn pushed3 1 (run_len a r)) 1.
Definition second (a r : ord) : option (wstepped nat) :=
  match after_len a r with
  | Some c => Some (wruns ex (spawn c 2 (run_len a r)) [WStep 2 1; WStep 2 0; WStep 2 0; WStep 2 0])
  | None => None
  end.
Definition faulty (s : option (wstepped nat)) : option wfault := match s with Some (WFault f) => Some f | _ => None end.
Example orders_as_in_the_code : run_len Acquire Release = op_prog ex OLen /\ faulty (second Acquire Release) = None /\ after_len Acquire Release <> None.
Proof. split; [reflexivity|]. split; [vm_compute; reflexivity|]. vm_compute. discriminate. Qed.
Example acquire_needed : faulty (second Relaxed Release) = Some (WF FRange).
Proof. vm_compute. reflexivity. Qed.
Example release_needed : faulty (second Acquire Relaxed) = Some (WF FRange).
Proof. vm_compute. reflexivity. Qed.
(** reading a value after seeing state SOME: a relaxed load of the state is not enough *)
Definition peek (a : ord) : prog nat (ret nat) := doo (LoadSt 0 a) ;; doo (RdBeg 0) ;; let! v := doo (RdEnd 0) in Ret (RVal v).
Definition pushed1 : wcfg nat := wfinal true [] (wcalls 1 (OPush 7) 0).
Example peek_acquire : faulty (Some (wruns ex (spawn pushed1 2 (peek Acquire)) [WStep 2 1; WStep 2 0; WStep 2 0])) = None.
Proof. vm_compute. reflexivity. Qed.
Example peek_relaxed : faulty (Some (wruns ex (spawn pushed1 2 (peek Relaxed)) [WStep 2 1; WStep 2 0; WStep 2 0])) = Some (WF FRace).
Proof. vm_compute. reflexivity. Qed.
