(** * The relations of [Post.v] for a call that is alone in the vector: operations on a list. *)

From Coq Require Import List Arith Bool Lia.
From Verif.Model Require Import Prog Mem Deps State Elem Vec Excl Machine.
From Verif Require Import Client Spec Seq Lists ListSem.
From Verif.Logic Require Import Inv WP Post Facts Visits Single.
From Verif.Properties Require Import Views Slices.
Import ListNotations.

Section SingleOps.
  Context {V : Type} (E : env V) (id : nat).
  Context (A : abs V) (ws : list V) (tr : list (acc V)) (sI sR : shared V).
  Hypothesis HS : shape A ws.
  Hypothesis HL : a_len A = length ws.
  Hypothesis HC : chain id A tr.
  Notation acts := (acts id).

  Definition result (P : list V -> Prop) : Prop :=
    exists ws', P ws' /\ shape (acts A tr) ws' /\ a_len (acts A tr) = length ws'.
  Lemma nochange (P : list V -> Prop) : eff tr = [] -> P ws -> result P.
  Proof. intros Ef H. exists ws. rewrite (acts_nil id A tr Ef). auto. Qed.
  Lemma readonly (P : list V -> Prop) a vs : eff tr = reads a vs -> P ws -> result P.
  Proof.
    intros Ef H. exists ws. pose proof (chain_eff _ _ _ HC) as C. rewrite Ef in C. destruct (reads_in id A a vs C) as [Q _].
    rewrite <- (acts_eff id A tr), Ef, Q. auto.
  Qed.
  Lemma one_read a v : eff tr = [AcRead a v] -> nth_error ws a = Some v.
  Proof. intros Ef. pose proof (chain_eff _ _ _ HC) as C. rewrite Ef in C. destruct C as [C _]. simpl in C. now destruct (shape_lt A ws a v HS C). Qed.
  Lemma written (P : list V -> Prop) a ps : eff tr = writes a ps -> a + length ps <= length ws -> P (splice a (map snd ps) ws) -> result P.
  Proof.
    intros Ef L H. exists (splice a (map snd ps) ws). split; [assumption|]. rewrite <- (acts_eff id A tr), Ef.
    destruct (writes_shape id A ws a ps HS L) as [H1 H2]. split; [assumption|]. rewrite H2, HL. symmetry. apply splice_len. now rewrite map_length.
  Qed.
  Lemma one_write (P : list V -> Prop) i old v : eff tr = [AcWrite i old v] -> (nth_error ws i = Some old -> P (splice i [v] ws)) -> result P.
  Proof.
    intros Ef H. pose proof (chain_eff _ _ _ HC) as C. rewrite Ef in C. destruct C as [C _]. simpl in C. destruct (shape_lt A ws i old HS C) as [C1 C2].
    apply (written P i [(old, v)]); [assumption|simpl; lia|auto].
  Qed.
  (** what the accesses without effect found *)
  Lemma has_iff i : i < length ws <-> exists v, a_pos A i = Has v.
  Proof.
    split; intros H.
    - destruct (nth_error ws i) as [v|] eqn:Q; [|apply nth_error_None in Q; lia]. exists v. apply has_value. now rewrite HS.
    - destruct H as (v & H). now destruct (shape_lt A ws i v HS H).
  Qed.
  Hypothesis NR : forall i, ~ In (AcSt i RESERVED) tr.
  Lemma found_st i x : (forall y, In y tr -> keeps y = true) -> In (AcSt i x) tr -> x = if i <? length ws then SOME else NONE.
  Proof.
    intros K H. pose proof (chain_in id A tr _ HC K H eq_refl) as Lg. simpl in Lg. destruct (Nat.ltb_spec i (length ws)) as [L|L].
    - apply has_iff in L. destruct L as (v & L). destruct x; [destruct (Lg v L)|destruct (NR _ H)|reflexivity].
    - destruct x; [reflexivity|destruct (NR _ H)|]. apply has_iff in Lg. lia.
  Qed.
  Lemma found_absent i : (forall y, In y tr -> keeps y = true) -> absent i tr -> length ws <= i.
  Proof.
    intros K [(n & Hn & [H|H])|H].
    - pose proof (chain_in id A tr _ HC K H eq_refl) as Lg. simpl in Lg. lia.
    - pose proof (chain_in id A tr _ HC K H eq_refl) as [_ Lg]. destruct (Nat.le_gt_cases (length ws) i) as [|L]; [assumption|].
      apply has_iff in L. destruct L as (v & L). specialize (Lg i v L). lia.
    - pose proof (found_st i NONE K H) as Q. destruct (Nat.ltb_spec i (length ws)); [discriminate|assumption].
  Qed.
  Lemma nil_keeps : eff tr = [] -> forall y, In y tr -> keeps y = true.
  Proof. intros Ef. apply eff_keeps. rewrite Ef. intros x []. Qed.
  Lemma len_at_least n : (forall y, In y tr -> keeps y = true) -> len_reason n tr -> length ws <= n.
  Proof.
    intros K [H|[H|(x & N & H)]].
    - apply (found_absent n K). left. exists n. auto.
    - apply (found_absent n K). left. exists n. auto.
    - pose proof (found_st n x K H) as Q. destruct (Nat.ltb_spec n (length ws)); [congruence|assumption].
  Qed.

  Lemma limits_fits g n p q : ochk E = true -> range_limits E g n = Some (p, q) -> range_fits (wmod E) g.
  Proof.
    assert (U : forall a b, ochk E = true -> uadd E a 1 = Some b -> S a < wmod E).
    { intros a b Ho. unfold uadd. rewrite Nat.add_1_r, Ho. destruct (Nat.ltb_spec (S a) (wmod E)); [auto|discriminate]. }
    intros Ho. unfold range_limits, range_fits. destruct (fst g) as [a|a|], (snd g) as [b|b|];
      repeat match goal with |- context [uadd E ?a 1] => let Q := fresh "Q" in destruct (uadd E a 1) eqn:Q; [apply U in Q; [|exact Ho]|] end;
      try discriminate; intros _; auto.
  Qed.

  Lemma swap_single i j v : post_swap E i j v tr sI sR -> (forall n, lenres n tr sI sR -> eff tr = [] -> i <> j -> n = length ws) ->
    (i < length ws -> j < length ws -> result (swap_list i j ws (Returns v))) /\
    (length ws <= i \/ length ws <= j -> result (gives ws (RBool false) (Returns v))).
  Proof.
    intros [(a & b & -> & N & Ef & _)|(-> & Ef & Wy)] HN.
    - pose proof (chain_eff _ _ _ HC) as C. rewrite Ef in C. destruct C as [(_ & C1 & C2) _].
      destruct (shape_lt A ws i a HS C1) as [N1 L1]. destruct (shape_lt A ws j b HS C2) as [N2 L2]. split; [|lia]. intros _ _.
      exists (splice j [a] (splice i [b] ws)). split.
      + unfold swap_list. destruct (Nat.eqb_spec i j); [contradiction|]. rewrite N1, N2. auto.
      + rewrite <- (acts_eff id A tr), Ef. simpl. split; [now apply swap_shape|]. rewrite !splice_len by (rewrite ?splice_len; simpl; lia). exact HL.
    - split; [|intros _; apply nochange; [assumption|split; reflexivity]]. intros Hi Hj. apply nochange; [assumption|].
      unfold swap_list. destruct (Nat.eqb_spec i j) as [|Ne]; [split; reflexivity|]. exfalso.
      destruct Wy as [(n & L & Wy)|(_ & [Wy|Wy])]; [rewrite (HN n L Ef Ne) in Wy; lia|exact (NR _ Wy)|exact (NR _ Wy)].
  Qed.

  Lemma slice_reads x q v : sl_a x + sl_len x <= length ws -> b_of E q (sl_a x) (sl_len x) v tr -> reads_all q = true ->
    result (slice_list (eqv E) (wmod E) (ochk E) (sl_a x) (sl_len x) q ws (Returns v)).
  Proof.
    intros Hx B Rq. destruct (b_result E q _ _ v tr B) as (vs & Ef & L1 & _ & Rs). apply (readonly _ _ vs Ef).
    pose proof (chain_eff _ _ _ HC) as C. rewrite Ef in C.
    pose proof (Rs (sublist (sl_a x) (sl_len x) ws) (sublist_len _ _ _ Hx) (reads_prefix id A ws _ _ vs HS C Hx L1)) as Q.
    destruct q; try discriminate; unfold slice_list; rewrite Q; split; reflexivity.
  Qed.

  Lemma slice_single x q v : post_slice E x q v tr sI sR -> sl_a x + sl_len x <= length ws -> ranges_ok E (OSl x q) ->
    (forall n i j, q = SSwap i j -> lenres n tr sI sR -> eff tr = [] -> i <> j -> n = length ws) ->
    result (slice_list (eqv E) (wmod E) (ochk E) (sl_a x) (sl_len x) q ws (Returns v)).
  Proof.
    intros P Hx Rg HN. destruct (reads_all q) eqn:Rq.
    { apply (slice_reads x q v Hx); [|assumption]. destruct q; try discriminate; exact P. }
    destruct q; try discriminate; simpl in P.
    - destruct P as [-> Ef]. apply nochange; [assumption|]. split; reflexivity.
    - destruct P as (L & -> & Ef). apply nochange; [assumption|]. unfold slice_list. apply Nat.ltb_lt in L as ->. split; reflexivity.
    - destruct P as [(L & w & -> & Ef)|(L & -> & Ef)].
      + apply (readonly _ (sl_a x + i) [w]); [assumption|]. unfold slice_list. apply Nat.ltb_lt in L as ->. rewrite (one_read _ _ Ef). split; reflexivity.
      + apply nochange; [assumption|]. unfold slice_list. apply Nat.ltb_ge in L as ->. split; reflexivity.
    - destruct P as (p & q & Rl & Hpq & -> & Ef). apply nochange; [assumption|]. simpl. split; [|split; [|reflexivity]].
      + intros F. destruct (limits_is E _ _ p q (or_intror F) Rl) as [-> ->]. destruct (Nat.leb_spec (range_start r (sl_len x)) (range_end r (sl_len x))); [split; reflexivity|lia].
      + intros F Ho. exfalso. exact (F (limits_fits _ _ _ _ Ho Rl)).
    - destruct P as [-> Ef]. apply nochange; [assumption|]. unfold slice_list, list_result. rewrite sublist_len by assumption. split; reflexivity.
    - unfold slice_list. destruct P as [(Li & Lj & P)|(L & -> & Ef)].
      + apply Nat.ltb_lt in Li as Li', Lj as Lj'. rewrite Li', Lj'. simpl. apply (swap_single (sl_a x + i) (sl_a x + j) v P); [|lia|lia].
        intros n L Ef N. eapply HN; eauto.
      + destruct (Nat.ltb_spec i (sl_len x)), (Nat.ltb_spec j (sl_len x)); simpl; try lia; (apply nochange; [assumption|split; reflexivity]).
    - destruct P as (olds & Lo & -> & Ef). apply (written _ _ _ Ef); [rewrite map_length, Lo; assumption|].
      unfold slice_list. split; [reflexivity|]. f_equal. rewrite map_map. simpl. rewrite <- Lo. clear. induction olds; simpl; congruence.
    - destruct P as (ps & Lo & -> & Ef & F). apply (written _ _ _ Ef); [rewrite Lo; assumption|]. unfold slice_list.
      exists (map snd ps), (length ps). split; [now apply closure_values|]. split; [reflexivity|]. left. auto.
    - destruct P as (L & -> & Ef). apply nochange; [assumption|]. unfold slice_list. apply Nat.leb_le in L as ->. split; reflexivity.
    - destruct P as (-> & Ef). apply nochange; [assumption|]. simpl. destruct (sl_len x); simpl; rewrite ?Nat.sub_0_r; split; reflexivity.
    - destruct P as (-> & Ef). apply nochange; [assumption|]. simpl. destruct (sl_len x); simpl; rewrite ?Nat.sub_0_r; split; reflexivity.
    - destruct P as (L & -> & Ef). apply nochange; [assumption|]. unfold slice_list. destruct (Nat.eqb_spec k 0); [lia|]. eexists. split; [apply chunks_are; lia|split; reflexivity].
    - destruct P as [(L & -> & _ & Ef)|(-> & Ef & Wy)]; (apply nochange; [assumption|]); unfold slice_list.
      + apply Nat.ltb_lt in L as ->. split; reflexivity.
      + destruct (Nat.ltb_spec i (sl_len x)) as [L|L]; [|split; reflexivity]. exfalso.
        destruct Wy as [Wy|[Wy|Wy]]; [lia| |exact (NR _ Wy)]. pose proof (found_absent _ (nil_keeps Ef) Wy). lia.
    - destruct P as (bs & Lb & -> & Ef & F). apply nochange; [assumption|]. simpl. split; [|reflexivity]. f_equal. f_equal.
      assert (T : forall k b, nth_error bs k = Some b -> b = true).
      { intros k b Hk. destruct (F k b Hk) as (s & Hs & ->). rewrite (found_st _ _ (nil_keeps Ef) Hs).
        assert (k < length bs) by (apply nth_error_Some; congruence). destruct (Nat.ltb_spec (sl_a x + k) (length ws)); [reflexivity|lia]. }
      rewrite <- Lb. clear - T. generalize (sl_a x) as a. induction bs as [|b bs IH]; intros a; simpl; [reflexivity|]. rewrite (T 0 b eq_refl). f_equal. apply IH. intros k. apply (T (S k)).
  Qed.

  Lemma slice_panics x q m : pan_slice E x q m tr -> sl_a x + sl_len x <= length ws ->
    result (slice_list (eqv E) (wmod E) (ochk E) (sl_a x) (sl_len x) q ws (Panics m)).
  Proof.
    intros P Hx. destruct (reads_all q) eqn:Rq.
    { destruct (pan_reads E (OSl x q) q m tr sI sR P eq_refl Rq) as (a & n & vs & -> & L & Ef & [-> ->] & Rs).
      apply (readonly _ _ vs Ef). pose proof (chain_eff _ _ _ HC) as C. rewrite Ef in C.
      pose proof (Rs (sublist (sl_a x) (sl_len x) ws) (reads_prefix id A ws _ _ vs HS C Hx L)) as Q.
      destruct q; try discriminate; unfold slice_list; rewrite Q; split; reflexivity. }
    destruct q; try discriminate; simpl in P; try contradiction.
    - destruct P as (-> & L & Ef). apply nochange; [assumption|]. unfold slice_list. apply Nat.ltb_ge in L as ->. split; reflexivity.
    - destruct P as (-> & Ho & Ef & Rl). apply nochange; [assumption|]. unfold slice_list. split; [|split; [split; reflexivity|reflexivity]].
      intros F. destruct (limits_some E r (sl_len x) F) as (p & q & Hl). pose proof (Rl _ _ Hl) as L. destruct (limits_is E r _ p q (or_introl Ho) Hl) as [-> ->].
      destruct (Nat.leb_spec (range_start r (sl_len x)) (range_end r (sl_len x))); [lia|split; reflexivity].
    - destruct P as (-> & ps & L & Fn & Ef & F). apply (written _ _ _ Ef); [lia|]. unfold slice_list.
      exists (map snd ps), (length ps). split; [now apply closure_values|]. split; [reflexivity|]. right. auto.
    - destruct P as (-> & L & Ef). apply nochange; [assumption|]. unfold slice_list. destruct (Nat.leb_spec m0 (sl_len x)); [lia|]. split; reflexivity.
    - destruct P as (-> & -> & Ef). apply nochange; [assumption|]. split; reflexivity.
  Qed.

  (** ** Growth *)
  Lemma grown (P : list V -> Prop) b n vs : eff tr = AcAdd b n :: inits b vs -> length vs <= n ->
    (b = length ws -> P (ws ++ vs)) ->
    exists ws', P ws' /\ shape (acts A tr) ws' /\ a_len (acts A tr) = length ws + n.
  Proof.
    intros Ef L H. pose proof (chain_eff _ _ _ HC) as C. rewrite Ef in C. destruct C as [C1 C2]. simpl in C1. rewrite HL in C1. subst b.
    exists (ws ++ vs). split; [auto|]. rewrite <- (acts_eff id A tr), Ef.
    destruct (inits_shape id A ws vs n HS L) as (H1 & H2 & _); [split; [exact HL|exact C2]|]. split; [assumption|]. exact (eq_trans H2 (f_equal (fun k => k + n) HL)).
  Qed.
  Hypothesis HR : forall i v, a_pos (acts A tr) i = Has v -> i < a_max A.
  Lemma grown_room b n vs : eff tr = AcAdd b n :: inits b vs -> length vs = n -> 0 < n -> (a_max A <? length ws + n) = false.
  Proof.
    intros Ef L Hn. destruct (grown (fun ws' => ws' = ws ++ vs) b n vs Ef ltac:(lia) (fun _ => eq_refl)) as (ws' & -> & S & _).
    apply Nat.ltb_ge. destruct (nth_error (ws ++ vs) (length ws + n - 1)) as [v|] eqn:Q; [|apply nth_error_None in Q; rewrite app_length in Q; lia].
    rewrite <- S in Q. apply has_value in Q. apply HR in Q. lia.
  Qed.
  Lemma append_single n it b vs v : firstn n it = map Some vs -> grow_post n vs b v tr ->
    result (append_list (a_max A) n it ws (Returns v)).
  Proof.
    intros Fi (-> & L & Ef). destruct (grown (fun ws' => append_list (a_max A) n it ws (Returns (RNat b)) ws' /\ length ws' = length ws + n) b n vs Ef ltac:(lia)) as (ws' & [H1 H2] & H3 & H4).
    - intros ->. split; [|rewrite app_length; lia]. unfold append_list. destruct (0 <? n) eqn:Hn; simpl.
      + rewrite (grown_room _ n vs Ef L) by now apply Nat.ltb_lt. exists vs. split; [reflexivity|]. left. auto.
      + exists vs. split; [reflexivity|]. left. auto.
    - exists ws'. split; [assumption|]. split; [assumption|]. congruence.
  Qed.

  Hypothesis HN : forall n, lenres n tr sI sR -> (forall x, In x tr -> keeps x = true) -> n = length ws.
  Hypothesis HM : a_max A = maxc sI.
  Definition inside (o : op V) : Prop :=
    match o with
    | OElem i _ | ODeref i | ODerefMut i _ => i < length ws
    | OSl x _ => sl_a x + sl_len x <= length ws
    | _ => True
    end.
  Lemma reads_keep a vs : eff tr = reads a vs -> forall x, In x tr -> keeps x = true.
  Proof. intros Ef. apply eff_keeps. rewrite Ef. intros x Hx. apply reads_only in Hx. now destruct Hx as (i & v & ->). Qed.
  Lemma writes_keep a ps : eff tr = writes a ps -> forall x, In x tr -> keeps x = true.
  Proof. intros Ef. apply eff_keeps. rewrite Ef. intros x Hx. apply writes_only in Hx. now destruct Hx as (i & v & w & ->). Qed.

  (** a method of the vector is the method of the slice of all positions *)
  Lemma as_slice o q v : post E o v tr sI sR -> method o = Some q -> match o with OSl _ _ => False | _ => True end ->
    post_slice E (CSlice 0 (length ws)) q v tr sI sR.
  Proof.
    intros P M N. destruct o; simpl in M; try discriminate; try contradiction; injection M as <-; simpl in P.
    Ltac fin HN L K := match type of L with lenres ?n _ _ _ => assert (n = length ws) by (apply (HN n L K)); subst n end.
    - destruct P as (n & p & q & L & P). pose proof P as (_ & _ & _ & Ef). fin HN L (nil_keeps Ef). simpl. exists p, q. auto.
    - destruct P as (n & L & -> & Ef). fin HN L (nil_keeps Ef). simpl. exists 0, (length ws).
      unfold range_limits. simpl. rewrite ?Nat.min_0_l, ?Nat.min_0_r, ?Nat.min_id, ?Nat.sub_0_r. auto 8 with arith.
    - destruct P as (n & L & P). pose proof P as (_ & Ef). fin HN L (nil_keeps Ef). exact P.
    - destruct P as (n & L & P). pose proof P as (vs & _ & _ & Ef). fin HN L (reads_keep _ _ Ef). exact P.
    - destruct P as (n & L & P). pose proof P as (vs & _ & _ & Ef). fin HN L (writes_keep _ _ Ef). exact P.
    - destruct P as (n & L & P). pose proof P as (vs & _ & _ & Ef & _). fin HN L (writes_keep _ _ Ef). exact P.
    - destruct P as (n & L & P). pose proof P as (k & _ & vs & Ef & _). fin HN L (reads_keep _ _ Ef). exact P.
    - destruct P as (n & L & P). pose proof P as (k & _ & vs & Ef & _). fin HN L (reads_keep _ _ Ef). exact P.
    - destruct P as (n & L & P). pose proof P as (vs & _ & _ & Ef). fin HN L (reads_keep _ _ Ef). exact P.
    - destruct P as (n & L & P). pose proof P as (vs & us & _ & _ & Ef & _). fin HN L (reads_keep _ _ Ef). exact P.
    - destruct P as (n & L & P). pose proof P as (vs & us & _ & _ & Ef & _). fin HN L (reads_keep _ _ Ef). exact P.
    - destruct P as (n & L & P). pose proof P as (vs & us & _ & _ & Ef & _). fin HN L (reads_keep _ _ Ef). exact P.
    - destruct P as (n & L & P). pose proof P as (vs & us & _ & _ & Ef & _). fin HN L (reads_keep _ _ Ef). exact P.
    - destruct P as (n & L & P). pose proof P as (_ & _ & Ef). fin HN L (nil_keeps Ef). exact P.
    - destruct P as (n & L & Ef & P). fin HN L (nil_keeps Ef). simpl. auto.
    - destruct P as (n & L & Ef & P). fin HN L (nil_keeps Ef). simpl. auto.
    - destruct P as (n & L & P). pose proof P as (_ & _ & Ef). fin HN L (nil_keeps Ef). exact P.
    - destruct P as (n & L & P). pose proof P as (vs & b & _ & Ef & _). fin HN L (reads_keep _ _ Ef). exact P.
    - destruct P as (n & L & P). pose proof P as (vs & _ & _ & Ef). fin HN L (reads_keep _ _ Ef). exact P.
  Qed.
  Lemma as_slice_pan o q m : pan E o m tr sI sR -> method o = Some q -> match o with OSl _ _ => False | _ => True end ->
    pan_slice E (CSlice 0 (length ws)) q m tr.
  Proof.
    intros P M N. destruct o; simpl in M; try discriminate; try contradiction; injection M as <-; simpl in P; try contradiction.
    - destruct P as (n & L & P). pose proof P as (_ & _ & Ef & _). fin HN L (nil_keeps Ef). exact P.
    - destruct P as (n & L & P). pose proof P as (_ & ps & _ & _ & Ef & _). fin HN L (writes_keep _ _ Ef). exact P.
    - destruct P as (n & L & P). pose proof P as (_ & ps & _ & Ef & _). fin HN L (reads_keep _ _ Ef). exact P.
    - destruct P as (n & L & P). pose proof P as (_ & ps & _ & Ef & _). fin HN L (reads_keep _ _ Ef). exact P.
    - destruct P as (n & L & P). pose proof P as (_ & ps & _ & Ef & _). fin HN L (reads_keep _ _ Ef). exact P.
    - destruct P as (n & L & P). pose proof P as (_ & ps & _ & Ef & _). fin HN L (reads_keep _ _ Ef). exact P.
    - destruct P as (-> & Ef & n & L & P). fin HN L (nil_keeps Ef). simpl. auto.
    - exact P.
  Qed.

  Theorem op_single o v : post E o v tr sI sR -> inside o -> ranges_ok E o ->
    result (list_sem (eqv E) (wmod E) (ochk E) (a_max A) o ws (Returns v)).
  Proof.
    intros P In0 Rg.
    assert (SN : forall (q : sop V) n i j, q = SSwap i j -> lenres n tr sI sR -> eff tr = [] -> i <> j -> n = length ws) by (intros; eapply HN; eauto using nil_keeps).
    assert (K : forall q, (match o with OSl _ _ => False | _ => True end) -> (match q with SSlice g => ranges_ok E (OSlice g) | _ => True end) -> post_slice E (CSlice 0 (length ws)) q v tr sI sR ->
      result (slice_list (eqv E) (wmod E) (ochk E) 0 (length ws) q ws (Returns v))).
    { intros q No Rq Pq. apply (slice_single (CSlice 0 (length ws)) q v Pq); [reflexivity| |eauto]. simpl. destruct q; simpl; auto. }
    destruct (method o) as [q|] eqn:M.
    { destruct o; simpl in M; try discriminate; try (injection M as <-; apply K; [exact I|auto; exact Rg|]; eapply as_slice; [exact P|reflexivity|exact I]).
      - injection M as <-. apply K; [exact I|simpl; right; unfold range_limits; simpl; intros n p q [= <- <-]; lia|]. eapply as_slice; [exact P|reflexivity|exact I].
      - injection M as ->. apply (slice_single x q v P); auto; eauto. }
    destruct o; simpl in M; try discriminate; simpl in P, In0.
    - destruct P as (b & P). eapply append_single; [|exact P]. reflexivity.
    - destruct P as (b & u & F & P). pose proof P as (-> & _ & Ef).
      destruct (grown (fun ws' => b = length ws) b 1 [u] Ef ltac:(simpl; lia) (fun H => H)) as (_ & -> & _).
      unfold list_sem. rewrite F. eapply append_single; [|exact P]. reflexivity.
    - destruct P as (b & vs & F & P). eapply append_single; eauto.
    - destruct P as (b & it & vs & F & Fi & P). pose proof P as (-> & Lv & Ef).
      destruct (grown (fun ws' => b = length ws) b n vs Ef ltac:(lia) (fun H => H)) as (_ & -> & _).
      unfold list_sem. rewrite F, Nat.eqb_refl. destruct (0 <? n) eqn:Hn; simpl.
      + rewrite (grown_room _ n vs Ef Lv) by (apply Nat.ltb_lt; exact Hn). eapply append_single; eauto.
      + eapply append_single; eauto.
    - destruct P as (b & vs & F & P). eapply append_single; eauto.
    - destruct P as (n & -> & Ef & L). fin HN L (nil_keeps Ef). apply nochange; [assumption|split; reflexivity].
    - destruct P as (n & -> & Ef & L). fin HN L (nil_keeps Ef). apply nochange; [assumption|split; reflexivity].
    - destruct P as (n & -> & Ef & L). apply nochange; [assumption|]. pose proof (chain_in id A tr _ HC (nil_keeps Ef) L eq_refl) as [L1 L2].
      exists n. split; [|split; reflexivity]. split; [|assumption]. destruct (Nat.le_gt_cases (length ws) n) as [|Q]; [assumption|].
      apply has_iff in Q. destruct Q as (w & Q). specialize (L2 n w Q). lia.
    - destruct P as (-> & Ef). apply nochange; [assumption|]. simpl. rewrite HM. split; reflexivity.
    - destruct P as (n & -> & Ef & L). fin HN L (nil_keeps Ef). apply K; [exact I|exact I|]. split; auto.
    - destruct P as (n & Hn & -> & Ef & L). fin HN L (nil_keeps Ef). apply K; [exact I|exact I|]. simpl. auto.
    - apply K; [exact I|exact I|]. simpl. destruct P as [(u & -> & Ef)|(-> & Ef & Ab)].
      + left. pose proof (one_read _ _ Ef) as N. split; [apply nth_error_Some; congruence|]. eauto.
      + right. split; [|auto]. now apply (found_absent i (nil_keeps Ef)).
    - apply K; [exact I|exact I|]. simpl. destruct P as [(u & -> & Ef)|(-> & Ef & Ab)].
      + left. pose proof (one_read _ _ Ef) as N. split; [apply nth_error_Some; congruence|]. eauto.
      + right. split; [|auto]. now apply (found_absent i (nil_keeps Ef)).
    - unfold list_sem, slice_list. destruct (swap_single i j v P ltac:(eauto)) as [S1 S2].
      destruct (Nat.ltb_spec i (length ws)), (Nat.ltb_spec j (length ws)); simpl; auto.
    - destruct o; simpl in P.
      + destruct P as (u & -> & Ef). apply (readonly _ i [u] Ef). exists u. split; [exact (one_read _ _ Ef)|split; reflexivity].
      + destruct P as (u & -> & Ef). apply (readonly _ i [u] Ef). exists u. split; [exact (one_read _ _ Ef)|split; reflexivity].
      + destruct P as (u & w & -> & Ef & F). apply (readonly _ i [u] Ef). exists u. split; [exact (one_read _ _ Ef)|]. rewrite F. split; reflexivity.
      + destruct P as (u & -> & Ef). apply (one_write _ _ _ _ Ef). intros N. exists u. auto.
      + destruct P as (u & -> & Ef). apply (one_write _ _ _ _ Ef). intros N. exists u. auto.
      + destruct P as (u & -> & Ef & F). apply (one_write _ _ _ _ Ef). intros N. exists u. rewrite F. auto.
      + destruct P as (u & -> & Ef). apply (readonly _ i [u] Ef). exists u. split; [exact (one_read _ _ Ef)|split; reflexivity].
    - unfold list_sem, slice_list. destruct P as [(-> & Hi & Ef)|(-> & Ef & Wy)]; (apply nochange; [assumption|]).
      + pose proof (found_st _ _ (nil_keeps Ef) Hi) as Q. destruct (Nat.ltb_spec i (length ws)); [split; reflexivity|discriminate].
      + destruct (Nat.ltb_spec i (length ws)) as [L|L]; [|split; reflexivity]. exfalso.
        destruct Wy as [Wy|Wy]; [pose proof (found_absent i (nil_keeps Ef) Wy); lia|exact (NR _ Wy)].
    - destruct P as (n & Hn & bs & Lb & -> & Ef & F). apply nochange; [assumption|]. split; [|reflexivity]. f_equal. f_equal.
      assert (Ln : length ws <= n). { apply len_at_least; [exact (nil_keeps Ef)|]. unfold len_reason. tauto. }
      assert (T : forall k b, nth_error bs k = Some b -> b = (k <? length ws)).
      { intros k b Hk. destruct (F k b Hk) as (s & Hs & ->). rewrite (found_st _ _ (nil_keeps Ef) Hs). simpl. now destruct (k <? length ws). }
      rewrite <- Lb in Ln. clear - T Ln. change (length ws) with (length ws) in T. revert T Ln. generalize (length ws) as m.
      assert (G : forall bs a m, (forall k b, nth_error bs k = Some b -> b = (k <? m)) -> m <= length bs -> pick a bs = seq a m).
      { clear. induction bs as [|b bs IH]; intros a m T L; simpl in *; [now replace m with 0 by lia|].
        rewrite (T 0 b eq_refl). destruct m as [|m]; simpl.
        - rewrite (IH (S a) 0); [reflexivity| |lia]. intros k b' Hk. exact (T (S k) b' Hk).
        - f_equal. apply IH; [|lia]. intros k b' Hk. exact (T (S k) b' Hk). }
      intros m T L. apply G; auto.
    - destruct P as (u & -> & Ef). apply (readonly _ i [u] Ef). exists u. split; [exact (one_read _ _ Ef)|split; reflexivity].
    - destruct P as (u & -> & Ef). apply (one_write _ _ _ _ Ef). intros N. exists u. auto.
  Qed.

  (** a panic: the list afterwards; after the panic of a growth call, more positions may be handed out *)
  Hypothesis HCR : cap sR <= a_max A.
  Definition presult (o : op V) (P : list V -> Prop) : Prop :=
    exists ws', P ws' /\ shape (acts A tr) ws' /\ (grows o = false -> a_len (acts A tr) = length ws').
  Lemma to_presult o P : result P -> presult o P.
  Proof. intros (ws' & H1 & H2 & H3). exists ws'. auto. Qed.
  Lemma add_only (o : op V) (P : list V -> Prop) b n : eff tr = [AcAdd b n] -> grows o = true -> (b = length ws -> P ws) -> presult o P.
  Proof.
    intros Ef G H. destruct (grown P b n [] Ef ltac:(simpl; lia)) as (ws' & H1 & H2 & _); [now rewrite app_nil_r|]. exists ws'. split; [assumption|]. split; [assumption|congruence].
  Qed.
  Lemma append_panics o n it b m : grow_pan n it b m tr sI sR -> grows o = true -> presult o (append_list (a_max A) n it ws (Panics m)).
  Proof.
    intros P G. destruct P as [(-> & Hn & L & Ef)|(L & vs & Lv & Ef & Wy)].
    - apply (add_only o _ b n Ef G). intros ->. unfold append_list. apply Nat.ltb_lt in Hn as ->. rewrite <- HM in L. apply Nat.ltb_lt in L as ->. split; reflexivity.
    - destruct (grown (append_list (a_max A) n it ws (Panics m)) b n vs Ef ltac:(lia)) as (ws' & H1 & H2 & _); [|exists ws'; split; [assumption|]; split; [assumption|congruence]].
      intros ->. unfold append_list. assert (Q : (a_max A <? length ws + n) = false) by (apply Nat.ltb_ge; lia). rewrite Q, andb_false_r.
      exists vs. split; [reflexivity|]. right. destruct Wy as [(-> & Wy)|(-> & Wy)]; auto.
  Qed.
  Theorem op_panics o m : pan E o m tr sI sR -> inside o ->
    presult o (list_sem (eqv E) (wmod E) (ochk E) (a_max A) o ws (Panics m)).
  Proof.
    intros P In0. destruct (method o) as [q|] eqn:M.
    { apply to_presult. assert (K : match o with OSl _ _ => False | _ => True end -> result (slice_list (eqv E) (wmod E) (ochk E) 0 (length ws) q ws (Panics m))).
      { intros No. apply (slice_panics (CSlice 0 (length ws)) q m); [eapply as_slice_pan; eauto|reflexivity]. }
      destruct o; simpl in M; try discriminate; try (injection M as <-; exact (K I)). injection M as ->. exact (slice_panics x q m P In0). }
    destruct o; simpl in M; try discriminate; simpl in P, In0; try contradiction.
    - destruct P as (b & -> & L & Ef). eapply (add_only _ _ b 1 Ef); [reflexivity|]. intros ->. simpl. unfold append_list.
      rewrite <- HM in L. destruct (Nat.ltb_spec (a_max A) (length ws + 1)); [split; reflexivity|lia].
    - destruct P as (b & Ef & P). eapply (add_only _ _ b 1 Ef); [reflexivity|]. intros ->. simpl. destruct P as [(-> & L & F)|(-> & ->)]; [|split; reflexivity].
      destruct (f (length ws)); [|congruence]. unfold append_list. rewrite <- HM in L. destruct (Nat.ltb_spec (a_max A) (length ws + 1)); [split; reflexivity|lia].
    - destruct P as (b & P). eapply append_panics; eauto.
    - destruct P as (b & P). unfold list_sem.
      assert (Q : 0 < n -> b + n <= cap sR -> b = length ws -> (0 <? n) && (a_max A <? length ws + n) = false).
      { intros Hn L ->. rewrite andb_false_iff. right. apply Nat.ltb_ge. lia. }
      assert (Q' : (0 < n -> b + n <= cap sR) -> b = length ws -> (0 <? n) && (a_max A <? length ws + n) = false).
      { intros L Hb. destruct (Nat.ltb_spec 0 n) as [Hn|Hn]; [|reflexivity]. apply Q; auto. }
      destruct P as [(-> & Hn & L & Ef)|[(-> & F & Ef & L)|[(-> & (k & it & F & Nk) & Ef & L)|(it & F & P)]]].
      + eapply (add_only _ _ b n Ef); [reflexivity|]. intros ->. apply Nat.ltb_lt in Hn as ->. rewrite <- HM in L. apply Nat.ltb_lt in L as ->. split; reflexivity.
      + eapply (add_only _ _ b n Ef); [reflexivity|]. intros Hb. rewrite (Q' L Hb). rewrite <- Hb, F. split; reflexivity.
      + eapply (add_only _ _ b n Ef); [reflexivity|]. intros Hb. rewrite (Q' L Hb). rewrite <- Hb, F. destruct (Nat.eqb_spec k n); [contradiction|]. split; reflexivity.
      + destruct (append_panics (OExtendFor f n) n it b m P eq_refl) as (ws' & H1 & H2 & H3). exists ws'. split; [|auto].
        assert (b = length ws). { clear - P HC HL. pose proof (chain_eff _ _ _ HC) as C. destruct P as [(_ & _ & _ & Ef)|(_ & vs & _ & Ef & _)]; rewrite Ef in C; destruct C as [C _]; simpl in C; congruence. }
        destruct ((0 <? n) && (a_max A <? length ws + n)) eqn:Z; [unfold append_list in H1; rewrite Z in H1; exact H1|].
        subst b. rewrite F, Nat.eqb_refl. exact H1.
    - destruct P as (b & P). eapply append_panics; eauto.
    - destruct P as (-> & Ef & n & L & Hn). fin HN L (nil_keeps Ef). apply to_presult. apply nochange; [assumption|]. unfold list_sem, slice_list. apply Nat.ltb_ge in Hn as ->. split; reflexivity.
    - apply to_presult. destruct o; simpl in P; try contradiction.
      + destruct P as (-> & u & Ef & F). apply (readonly _ i [u] Ef). exists u. split; [exact (one_read _ _ Ef)|]. rewrite F. split; reflexivity.
      + destruct P as (-> & u & Ef & F). apply (one_write _ _ _ _ Ef). intros N. exists u. rewrite F. auto.
  Qed.
End SingleOps.
