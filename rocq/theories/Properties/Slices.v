(** * C25, C26: slices. *)

From Coq Require Import List Arith Bool Lia.
From Verif.Model Require Import Prog Mem Deps State Elem Vec Excl Machine.
From Verif Require Import Client Spec Seq Lists.
From Verif.Logic Require Import Inv WP Post Specs Ops Sound Shape Clients Hist Locks Facts Complete Trace Visits.
From Verif.Properties Require Import Examples Length Views.
Import ListNotations.

(** ** Proofs: range arithmetic *)
Section Ranges.
  Context {V : Type} (E : env V).
  Lemma limits_is g n p q : ochk E = true \/ range_fits (wmod E) g -> range_limits E g n = Some (p, q) -> p = range_start g n /\ q = range_end g n.
  Proof.
    assert (U : forall a, ochk E = true \/ S a < wmod E -> forall b, uadd E a 1 = Some b -> b = S a).
    { intros a H b. unfold uadd. rewrite Nat.add_1_r. destruct (Nat.ltb_spec (S a) (wmod E)) as [L|L]; [intros [= <-]; reflexivity|].
      destruct H as [Ho|H]; [rewrite Ho; discriminate|exfalso; lia]. }
    intros F. unfold range_limits, range_start, range_end. destruct F as [F|[F1 F2]].
    - destruct (fst g) as [a|a|], (snd g) as [b|b|];
        repeat match goal with |- context [uadd E ?a 1] => let Q := fresh "Q" in destruct (uadd E a 1) eqn:Q; [apply U in Q; [subst|auto]|] end;
        try discriminate; intros [= <- <-]; split; first [lia|apply (Nat.min_comm (S _))].
    - destruct (fst g) as [a|a|], (snd g) as [b|b|];
        repeat match goal with |- context [uadd E ?a 1] => let Q := fresh "Q" in destruct (uadd E a 1) eqn:Q; [apply U in Q; [subst|auto]|] end;
        try discriminate; intros [= <- <-]; split; first [lia|apply (Nat.min_comm (S _))].
  Qed.
  Lemma limits_some g n : range_fits (wmod E) g -> exists p q, range_limits E g n = Some (p, q).
  Proof.
    assert (U : forall a, S a < wmod E -> uadd E a 1 = Some (S a)).
    { intros a H. unfold uadd. rewrite Nat.add_1_r. now apply Nat.ltb_lt in H as ->. }
    intros [F1 F2]. unfold range_limits. destruct (fst g) as [a|a|], (snd g) as [b|b|]; rewrite ?U by assumption; eauto.
  Qed.

  Lemma chunked_app k xs : forall a q n ys, length xs = q -> 0 < k -> q * k <= n -> (forall i x, nth_error xs i = Some x -> x = CSlice (a + i * k) k) ->
    chunked k (a + q * k) (n - q * k) ys -> chunked k a n (xs ++ ys).
  Proof.
    induction xs as [|x xs IH]; intros a q n ys L Hk Hq H C; subst q; simpl in *.
    - rewrite Nat.add_0_r, Nat.sub_0_r in C. exact C.
    - rewrite (Nat.min_l k n) by lia. split; [lia|]. split; [specialize (H 0 x eq_refl); simpl in H; now rewrite Nat.add_0_r in H|].
      apply (IH (a + k) (length xs)); auto; [lia| |].
      + intros i y Hy. specialize (H (S i) y Hy). simpl in H. now rewrite Nat.add_assoc in H.
      + replace (a + k + length xs * k) with (a + (k + length xs * k)) by lia. replace (n - k - length xs * k) with (n - (k + length xs * k)) by lia. exact C.
  Qed.
  Lemma chunks_are a n k : 0 < k -> chunked k a n (chunk_slices a n k).
  Proof.
    intros Hk. unfold chunk_slices, chunk_ranges. rewrite map_map. simpl. set (q := n / k).
    assert (D : n = k * q + n mod k) by (apply Nat.div_mod; lia). assert (M : n mod k < k) by (apply Nat.mod_upper_bound; lia).
    assert (Sq : forall P : nat -> cslice, (forall i, i < q -> P i = CSlice (a + i * k) k) -> forall i x, nth_error (map P (seq 0 q)) i = Some x -> x = CSlice (a + i * k) k).
    { intros P H i x. rewrite nth_error_map. destruct (nth_error (seq 0 q) i) as [j|] eqn:Hj; [|discriminate]. simpl. intros [= <-].
      assert (i < q) by (rewrite <- (seq_length q 0); apply nth_error_Some; congruence).
      apply (nth_error_nth _ _ 0) in Hj. rewrite seq_nth in Hj by assumption. simpl in Hj. subst j. auto. }
    destruct (Nat.ltb_spec 0 (n - q * k)) as [Hr|Hr].
    - rewrite Nat.add_1_r, seq_S, map_app, Nat.add_0_l. cbn [map]. apply (chunked_app k _ a q); auto.
      + now rewrite map_length, seq_length.
      + lia.
      + apply Sq. intros i Hi. replace (S q - 1) with q by lia. destruct (Nat.eqb_spec i q); [lia|]. simpl. f_equal. lia.
      + replace (S q - 1) with q by lia. rewrite Nat.eqb_refl. simpl. rewrite (Nat.min_r k) by lia. split; [lia|]. split; [f_equal; lia|lia].
    - rewrite <- (app_nil_r (map _ _)). apply (chunked_app k _ a q); auto.
      + now rewrite map_length, seq_length.
      + lia.
      + apply Sq. intros i Hi. rewrite andb_false_r. f_equal. lia.
      + simpl. lia.
  Qed.
End Ranges.

Section Slices.
  Context {V : Type} (E : env V) (l0 : list V) (c0 m0 : nat) (c : cfg V).
  Hypothesis X : execution E false false l0 c0 m0 c.
  Notation h := (hist c).
  Notation a0 := (abs0 l0 m0).

  Definition part (o : op V) (a n : nat) tr (sI sR : shared V) : Prop :=
    match o with OSl x _ => a = sl_a x /\ n = sl_len x | _ => a = 0 /\ lenres n tr sI sR end.

  (** C25: [slice] of the vector or of a slice gives the positions of the range, limited to the length;
      ... *)
  Theorem C25_slice id r o g v : returned h id r o v -> method o = Some (SSlice g) -> ochk E = true \/ range_fits (wmod E) g ->
    exists a n, covers a0 h id r o a n /\ range_start g n <= range_end g n <= n /\
      v = RSl (CSlice (a + range_start g n) (range_end g n - range_start g n)) /\ visited id h = [].
  Proof.
    intros R M F. destruct (execution_expl _ _ _ _ _ _ c X) as (snap & Ex & _).
    destruct (h_returned _ _ _ _ _ _ _ Ex _ _ _ _ R) as (Hi & Hr & He & _ & P & _). destruct R as (t & R1 & R2).
    assert (Q : exists a n, part o a n (accs id (firstn r h)) (snap id) (snap r) /\ range_start g n <= range_end g n <= n /\
      v = RSl (CSlice (a + range_start g n) (range_end g n - range_start g n)) /\ eff (accs id (firstn r h)) = []).
    { destruct o; try discriminate; simpl in P; simpl in M.
      - injection M as <-. destruct P as (n & p & q & L & Rl & Hpq & -> & Ef). destruct (limits_is E _ n p q F Rl) as [-> ->]. exists 0, n. simpl. auto 6.
      - injection M as <-. destruct P as (n & L & -> & Ef). exists 0, n. unfold range_start, range_end. simpl. rewrite !Nat.min_0_r, Nat.min_id, Nat.sub_0_r. split; [auto|]. split; [lia|auto].
      - injection M as ->. simpl in P. destruct P as (p & q & Rl & Hpq & -> & Ef).
        destruct (limits_is E _ _ p q F Rl) as [-> ->]. exists (sl_a x), (sl_len x). simpl. auto 6. }
    destruct Q as (a & n & C & H1 & H2 & Ef). exists a, n. split; [|split; [assumption|split; [assumption|]]].
    - eapply (covers_during E l0 c0 m0 c X snap id t o); eauto; [discriminate|apply Nat.eqb_refl].
    - rewrite visited_eff, (accs_all _ _ _ _ _ _ _ Ex id r _ R2 (Nat.eqb_refl id)), Ef. reflexivity.
  Qed.
  (** ... it panics only if overflow checks are on and the bounds overflow or the range is inverted. *)
  Theorem C25_panic id r o g m : panicked h id r o m -> method o = Some (SSlice g) ->
    m = POverflow /\ ochk E = true /\ (range_fits (wmod E) g -> exists a n, covers a0 h id r o a n /\ range_end g n < range_start g n).
  Proof.
    intros R M. destruct (execution_expl _ _ _ _ _ _ c X) as (snap & Ex & _).
    destruct (h_panicked _ _ _ _ _ _ _ Ex _ _ _ _ R) as (Hi & Hr & He & _ & P). destruct R as (t & R1 & R2).
    assert (Q : exists a n, part o a n (accs id (firstn r h)) (snap id) (snap r) /\ over E g n m (accs id (firstn r h))).
    { destruct o; try discriminate; simpl in P; simpl in M; try contradiction.
      - injection M as <-. destruct P as (n & L & P). exists 0, n. simpl. auto.
      - injection M as ->. exists (sl_a x), (sl_len x). simpl. auto. }
    destruct Q as (a & n & C & -> & Ho & _ & Rl). split; [reflexivity|]. split; [assumption|]. intros F. exists a, n. split.
    - eapply (covers_during E l0 c0 m0 c X snap id t o); eauto; [discriminate|apply Nat.eqb_refl].
    - destruct (limits_some E g n F) as (p & q & Hl). pose proof (Rl _ _ Hl). destruct (limits_is E g n p q (or_introl Ho) Hl). lia.
  Qed.
  (** A call on a slice reads, changes and locks only positions of the slice, which all have values. *)
  Theorem C25_own k id t x q y : nth_error h k = Some (EAcc id t y) -> called h id (OSl x q) ->
    match y with
    | AcRead i _ | AcWrite i _ _ => sl_a x <= i < sl_a x + sl_len x
    | AcSwap i j _ _ => (sl_a x <= i < sl_a x + sl_len x) /\ (sl_a x <= j < sl_a x + sl_len x)
    | AcInit _ _ | AcAdd _ _ => False
    | _ => True
    end.
  Proof.
    intros Hk (t0 & Ho). destruct (execution_source _ _ _ _ _ _ c X k id t y Hk) as (o & (t' & Ho') & S).
    rewrite Ho in Ho'. injection Ho' as _ <-. destruct y; simpl in S; auto.
    - destruct S as [S _]. discriminate.
    - destruct S as [S|S]; [|discriminate]. unfold touches_slice in S. destruct q; try contradiction; lia.
    - destruct q; try contradiction; tauto.
    - destruct q; try contradiction; lia.
  Qed.
  Theorem C25_values id k x q i : called h id (OSl x q) -> sl_a x <= i < sl_a x + sl_len x -> id <= k <= length h -> epoch h k = epoch h id ->
    exists v, value (before a0 h k) i = Some v.
  Proof.
    intros (t & R1) Hi Hk He. destruct (execution_expl _ _ _ _ _ _ c X) as (snap & Ex & _). pose proof (nth_lt _ _ _ R1).
    destruct (h_ev _ _ _ _ _ _ _ Ex id _ R1) as (_ & _ & G & _). destruct (G _ eq_refl) as (_ & _ & Gw).
    specialize (Gw i Hi). apply (h_filled _ _ _ _ _ _ _ Ex id _ ltac:(lia)) in Gw. destruct Gw as (w & Hw).
    destruct (h_has _ _ _ _ _ _ _ Ex id k _ w ltac:(lia) ltac:(lia) ltac:(auto) Hw) as (w' & Hw'). exists w'. unfold value. now rewrite Hw'.
  Qed.

  (** C26: [split_at], [split_first], [split_last] and [chunks]. *)
  Theorem C26_split_at id r o m v : returned h id r o v -> method o = Some (SSplitAt m) -> exists a n, covers a0 h id r o a n /\
    m <= n /\ v = RSl2 (CSlice a m) (CSlice (a + m) (n - m)) /\ visited id h = [].
  Proof.
    intros R M. destruct (execution_expl _ _ _ _ _ _ c X) as (snap & Ex & _).
    destruct (h_returned _ _ _ _ _ _ _ Ex _ _ _ _ R) as (Hi & Hr & He & _ & P & _). destruct R as (t & R1 & R2).
    assert (Q : exists a n, part o a n (accs id (firstn r h)) (snap id) (snap r) /\ m <= n /\ v = RSl2 (CSlice a m) (CSlice (a + m) (n - m)) /\ eff (accs id (firstn r h)) = []).
    { destruct o; try discriminate; simpl in P; simpl in M; injection M as ->; [destruct P as (n & L & P); exists 0, n|exists (sl_a x), (sl_len x)]; simpl; auto. }
    destruct Q as (a & n & C & H1 & H2 & Ef). exists a, n. split; [|split; [assumption|split; [assumption|]]].
    - eapply (covers_during E l0 c0 m0 c X snap id t o); eauto; [discriminate|apply Nat.eqb_refl].
    - rewrite visited_eff, (accs_all _ _ _ _ _ _ _ Ex id r _ R2 (Nat.eqb_refl id)), Ef. reflexivity.
  Qed.
  Theorem C26_split_at_panic id r o m p : panicked h id r o p -> method o = Some (SSplitAt m) ->
    exists a n, covers a0 h id r o a n /\ n < m /\ p = PAssert.
  Proof.
    intros R M. destruct (execution_expl _ _ _ _ _ _ c X) as (snap & Ex & _).
    destruct (h_panicked _ _ _ _ _ _ _ Ex _ _ _ _ R) as (Hi & Hr & He & _ & P). destruct R as (t & R1 & R2).
    assert (Q : exists a n, part o a n (accs id (firstn r h)) (snap id) (snap r) /\ n < m /\ p = PAssert).
    { destruct o; try discriminate; simpl in P; simpl in M; injection M as ->; [destruct P as (-> & _ & n & L & P); exists 0, n|destruct P as (-> & P & _); exists (sl_a x), (sl_len x)]; simpl; auto. }
    destruct Q as (a & n & C & Q). exists a, n. split; [|assumption].
    eapply (covers_during E l0 c0 m0 c X snap id t o); eauto; [discriminate|apply Nat.eqb_refl].
  Qed.
  Theorem C26_split_first id r o v : returned h id r o v -> method o = Some SSplitFirst -> exists a n, covers a0 h id r o a n /\
    v = ROptSplit (if n =? 0 then None else Some (a, CSlice (a + 1) (n - 1))) /\ visited id h = [].
  Proof.
    intros R M. destruct (execution_expl _ _ _ _ _ _ c X) as (snap & Ex & _).
    destruct (h_returned _ _ _ _ _ _ _ Ex _ _ _ _ R) as (Hi & Hr & He & _ & P & _). destruct R as (t & R1 & R2).
    assert (Q : exists a n, part o a n (accs id (firstn r h)) (snap id) (snap r) /\ v = ROptSplit (if n =? 0 then None else Some (a, CSlice (a + 1) (n - 1))) /\ eff (accs id (firstn r h)) = []).
    { destruct o; try discriminate; simpl in P; simpl in M; try injection M as ->.
      - destruct P as (n & L & Ef & ->). exists 0, n. simpl. split; [auto|]. split; [|assumption]. destruct n; [reflexivity|]. simpl. now rewrite Nat.sub_0_r.
      - destruct P as [-> Ef]. exists (sl_a x), (sl_len x). simpl. split; [auto|]. split; [|assumption]. destruct (sl_len x); [reflexivity|]. simpl. now rewrite Nat.sub_0_r. }
    destruct Q as (a & n & C & H1 & Ef). exists a, n. split; [|split; [assumption|]].
    - eapply (covers_during E l0 c0 m0 c X snap id t o); eauto; [discriminate|apply Nat.eqb_refl].
    - rewrite visited_eff, (accs_all _ _ _ _ _ _ _ Ex id r _ R2 (Nat.eqb_refl id)), Ef. reflexivity.
  Qed.
  Theorem C26_split_last id r o v : returned h id r o v -> method o = Some SSplitLast -> exists a n, covers a0 h id r o a n /\
    v = ROptSplit (if n =? 0 then None else Some (a + (n - 1), CSlice a (n - 1))) /\ visited id h = [].
  Proof.
    intros R M. destruct (execution_expl _ _ _ _ _ _ c X) as (snap & Ex & _).
    destruct (h_returned _ _ _ _ _ _ _ Ex _ _ _ _ R) as (Hi & Hr & He & _ & P & _). destruct R as (t & R1 & R2).
    assert (Q : exists a n, part o a n (accs id (firstn r h)) (snap id) (snap r) /\ v = ROptSplit (if n =? 0 then None else Some (a + (n - 1), CSlice a (n - 1))) /\ eff (accs id (firstn r h)) = []).
    { destruct o; try discriminate; simpl in P; simpl in M; try injection M as ->.
      - destruct P as (n & L & Ef & ->). exists 0, n. simpl. split; [auto|]. split; [|assumption]. destruct n; [reflexivity|]. simpl. now rewrite Nat.sub_0_r.
      - destruct P as [-> Ef]. exists (sl_a x), (sl_len x). simpl. split; [auto|]. split; [|assumption]. destruct (sl_len x); [reflexivity|]. simpl. now rewrite Nat.sub_0_r. }
    destruct Q as (a & n & C & H1 & Ef). exists a, n. split; [|split; [assumption|]].
    - eapply (covers_during E l0 c0 m0 c X snap id t o); eauto; [discriminate|apply Nat.eqb_refl].
    - rewrite visited_eff, (accs_all _ _ _ _ _ _ _ Ex id r _ R2 (Nat.eqb_refl id)), Ef. reflexivity.
  Qed.
  Theorem C26_chunks id r o k v : returned h id r o v -> method o = Some (SChunks k) -> exists a n xs, covers a0 h id r o a n /\
    0 < k /\ v = RSls xs /\ chunked k a n xs /\ visited id h = [].
  Proof.
    intros R M. destruct (execution_expl _ _ _ _ _ _ c X) as (snap & Ex & _).
    destruct (h_returned _ _ _ _ _ _ _ Ex _ _ _ _ R) as (Hi & Hr & He & _ & P & _). destruct R as (t & R1 & R2).
    assert (Q : exists a n, part o a n (accs id (firstn r h)) (snap id) (snap r) /\ 0 < k /\ v = RSls (chunk_slices a n k) /\ eff (accs id (firstn r h)) = []).
    { destruct o; try discriminate; simpl in P; simpl in M; injection M as ->; [destruct P as (n & L & P); exists 0, n|exists (sl_a x), (sl_len x)]; simpl; auto. }
    destruct Q as (a & n & C & H1 & H2 & Ef). exists a, n, (chunk_slices a n k). split; [|split; [assumption|split; [assumption|split; [now apply chunks_are|]]]].
    - eapply (covers_during E l0 c0 m0 c X snap id t o); eauto; [discriminate|apply Nat.eqb_refl].
    - rewrite visited_eff, (accs_all _ _ _ _ _ _ _ Ex id r _ R2 (Nat.eqb_refl id)), Ef. reflexivity.
  Qed.
  Theorem C26_chunks_panic id r o k p : panicked h id r o p -> method o = Some (SChunks k) -> k = 0 /\ p = PAssert.
  Proof.
    intros R M. destruct (execution_expl _ _ _ _ _ _ c X) as (snap & Ex & _).
    destruct (h_panicked _ _ _ _ _ _ _ Ex _ _ _ _ R) as (Hi & Hr & He & _ & P).
    destruct o; try discriminate; simpl in P; simpl in M; injection M as ->; destruct P as (-> & P & _); auto.
  Qed.
  Theorem C26_no_panic id r o q p : panicked h id r o p -> method o = Some q -> q <> SSplitFirst /\ q <> SSplitLast.
  Proof.
    intros R M. destruct (execution_expl _ _ _ _ _ _ c X) as (snap & Ex & _).
    destruct (h_panicked _ _ _ _ _ _ _ Ex _ _ _ _ R) as (Hi & Hr & He & _ & P).
    split; intros ->; destruct o; try discriminate; simpl in P; simpl in M; try contradiction; injection M as ->; contradiction.
  Qed.
End Slices.

(** A history: a slice is taken while the vector grows, and used. *)
Definition slices_script : list (item nat) :=
  calls 0 (OExtend 3 [Some 6; Some 5; Some 4]) ++ begin 1 (OSlice (BExcl 0, BIncl 2)) 3 ++ calls 0 (OPush 8) ++ [Fin 1] ++
  calls 1 (OSl (CSlice 1 2) (SSlice (BIncl 1, BUnb))) ++ calls 1 (OSl (CSlice 1 2) (SGetCloned 1)) ++
  calls 1 (OSl (CSlice 1 2) (SSwap 0 1)) ++ calls 1 (OSlice (rng 3 1)) ++
  calls 1 (OSplitAt 2) ++ calls 1 (OSplitAt 6) ++ calls 1 OSplitFirst ++ calls 0 OSplitLast ++ calls 0 (OChunks 2) ++ calls 0 (OChunks 0).
Notation sl := (final [5] slices_script).
Example slices_execution : execution ex false false [5] 2 8 sl.
Proof. apply ex_final. vm_compute. reflexivity. Qed.
Example slices_example : returned (hist sl) 7 18 (OSlice (BExcl 0, BIncl 2)) (RSl (CSlice 1 2)) /\
  returned (hist sl) 19 20 (OSl (CSlice 1 2) (SSlice (BIncl 1, BUnb))) (RSl (CSlice 2 1)) /\
  panicked (hist sl) 35 38 (OSlice (rng 3 1)) POverflow /\
  nth_error (hist sl) 33 = Some (EAcc 25 1 (AcSwap 1 2 6 5)) /\ called (hist sl) 25 (OSl (CSlice 1 2) (SSwap 0 1)).
Proof.
  do 3 (split; [eexists; split; vm_compute; reflexivity|]). split; [vm_compute; reflexivity|]. eexists. vm_compute. reflexivity.
Qed.
Example slices_example_split : returned (hist sl) 39 46 (OSplitAt 2) (RSl2 (CSlice 0 2) (CSlice 2 3)) /\
  panicked (hist sl) 47 50 (OSplitAt 6) PAssert /\
  returned (hist sl) 51 59 OSplitFirst (ROptSplit (Some (0, CSlice 1 4))) /\
  returned (hist sl) 60 68 OSplitLast (ROptSplit (Some (4, CSlice 0 4))) /\
  returned (hist sl) 69 78 (OChunks 2) (RSls [CSlice 0 2; CSlice 2 2; CSlice 4 1]) /\
  panicked (hist sl) 79 80 (OChunks 0) PAssert.
Proof. do 5 (split; [eexists; split; vm_compute; reflexivity|]). eexists; split; vm_compute; reflexivity. Qed.

Print Assumptions C25_slice.
Print Assumptions C25_panic.
Print Assumptions C25_own.
Print Assumptions C25_values.
Print Assumptions C26_split_at.
Print Assumptions C26_split_at_panic.
Print Assumptions C26_split_first.
Print Assumptions C26_split_last.
Print Assumptions C26_chunks.
Print Assumptions C26_chunks_panic.
Print Assumptions C26_no_panic.
