(** * Where the values come from. *)

From Coq Require Import List Arith Bool Lia Permutation.
From Verif.Model Require Import Prog Mem Deps State Elem Vec Excl Machine.
From Verif Require Import Client Spec Seq.
From Verif.Logic Require Import Inv WP Post Specs Ops Sound Shape Clients Hist Facts Complete Lawful.
Import ListNotations.
Local Arguments Nat.leb : simpl never.
Local Arguments Nat.ltb : simpl never.
Local Arguments Nat.eqb : simpl never.
Local Arguments Nat.add : simpl never.
Local Arguments Nat.sub : simpl never.

Section Source.
  Context {V : Type} (E : env V) (ro nl : bool) (l0 : list V) (c0 m0 : nat).
  Notation execution := (execution E ro nl l0 c0 m0).
  Implicit Types c : cfg V.

  (** changes other than the first value of a position *)
  Definition source' (o : op V) (x : acc V) : Prop := match x with AcInit _ _ => True | _ => source o x end.
  Lemma exec_source t (a : act V) s y s' l o x : exec E t a s = Done y s' l -> In x l -> act_ok (touches o) (makes o) a -> source' o x.
  Proof.
    intros H Hin Ok. destruct a; try exact (False_ind _ Ok); revert H Hin; simpl in *; unfold with_slot; intros H;
      repeat match goal with
             | H : context [if ?b then _ else _] |- _ => let Q := fresh "Q" in destruct b eqn:Q
             | H : context [match ?b with _ => _ end] |- _ => let Q := fresh "Q" in destruct b eqn:Q
             end; try discriminate; injection H as <- <- <-; intros Hz; try (destruct Hz; fail);
        (destruct Hz as [<-|[]]; simpl; auto).
  Qed.
  Lemma execution_source' c : execution c -> forall k id t x, nth_error (hist c) k = Some (EAcc id t x) ->
    exists o, called (hist c) id o /\ source' o x.
  Proof.
    intros (X1 & X2 & X3 & X4 & R). induction R as [|c l c' R IH C S]; [intros [|k]; discriminate|].
    assert (X : execution c) by (repeat (split; [assumption|]); assumption).
    destruct (execution_world _ _ _ _ _ _ c X) as (snap & g & W). pose proof (w_gi _ _ _ _ _ _ _ _ W) as G. pose proof (w_b _ _ _ _ _ _ _ _ W) as HB.
    assert (K : forall h', (forall id t x, In (EAcc id t x) h' -> exists o, called (hist c ++ h') id o /\ source' o x) ->
              forall k id t x, nth_error (hist c ++ h') k = Some (EAcc id t x) -> exists o, called (hist c ++ h') id o /\ source' o x).
    { intros h' H k id t x Hk. destruct (Nat.lt_ge_cases k (length (hist c))).
      - rewrite nth_error_app1 in Hk by assumption. destruct (IH k id t x Hk) as (o & (u & Ho) & Q). exists o. split; [|assumption].
        exists u. rewrite nth_error_app1; [assumption|]. now apply nth_lt in Ho.
      - rewrite nth_error_app2 in Hk by assumption. apply nth_error_In in Hk. eauto. }
    assert (A : forall t x a k y s' l, lookup t (run c) = Some x -> (c_prog x = Act a k \/ exists ag, c_prog x = Spin a ag k) ->
              exec E t a (sh c) = Done y s' l -> forall q id u z, nth_error (hist (after t c x (k y) s' l)) q = Some (EAcc id u z) ->
              exists o, called (hist (after t c x (k y) s' l)) id o /\ source' o z).
    { intros t x a k y s' lg Lk Hp Ex. apply K. intros id u z Hin. apply in_map_iff in Hin. destruct Hin as (z' & Q & Hz). injection Q as <- <- ->.
      exists (c_op x). destruct (gi_run _ _ _ _ _ _ _ _ G t x Lk) as ((O & _) & _). split.
      - exists t. rewrite nth_error_app1; [assumption|]. now apply nth_lt in O.
      - destruct (b_ph _ _ _ HB t x Lk) as [[Gr Hx]|Tl].
        + destruct (grow_shape E (c_op x) Gr) as (k' & Hk & _). rewrite Hx, Hk in Hp. destruct Hp as [Hp|(ag & Hp)]; [|discriminate].
          assert (a = AddResv (request (c_op x)) Relaxed) by congruence. subst a. simpl in Ex. injection Ex as <- <- <-. destruct Hz as [<-|[]]. simpl. auto.
        + eapply exec_source; eauto. unfold tail in Tl. destruct Hp as [Hp|(ag & Hp)]; rewrite Hp in Tl; apply Tl. }
    destruct l as [t o|t| |n]; simpl in S.
    - destruct (lookup t (run c)); [discriminate|]. destruct (has_grant o (given c)); [|discriminate]. injection S as <-.
      apply K. intros id u z [Q|[]]. discriminate.
    - unfold step_thread in S. destruct (lookup t (run c)) as [x|] eqn:Lk; [|discriminate].
      destruct (c_prog x) as [r|m|a k|a ag k] eqn:Hp.
      + injection S as <-. apply K. intros id u z [Q|[]]. discriminate.
      + injection S as <-. apply K. intros id u z [Q|[]]. discriminate.
      + destruct (exec E t a (sh c)) eqn:Ex; [|discriminate]. injection S as <-. eapply A; eauto.
      + destruct (exec E t a (sh c)) eqn:Ex; [|discriminate]. destruct (ag x0); injection S as <-; [assumption|]. eapply A; eauto.
    - destruct (run c); [|discriminate]. destruct (clear (sh c)); try discriminate; injection S as <-; [|assumption].
      apply K. intros id u z [Q|[]]. discriminate.
    - destruct (run c); [|discriminate]. destruct (reserve_maximum_capacity E n (sh c)) as [[]| |]; try discriminate; injection S as <-; [|assumption].
      apply K. intros id u z [Q|[]]. discriminate.
  Qed.

  Lemma firstn_map_in n (it : list (option V)) vs v : firstn n it = map Some vs -> In v vs -> In (Some v) (firstn n it).
  Proof. intros -> H. now apply in_map. Qed.
  Lemma prefix_in n (it : list (option V)) vs v : length vs <= n -> (exists it', it = map Some vs ++ it') -> In v vs -> In (Some v) (firstn n it).
  Proof.
    intros L (it' & ->) H. rewrite firstn_app, map_length, firstn_all2 by (rewrite map_length; lia).
    apply in_app_iff. left. now apply in_map.
  Qed.
  Lemma inits_in i v b (vs : list V) : In (AcInit i v) (inits b vs) -> In v vs.
  Proof. revert b. induction vs as [|w vs IH]; intros b; simpl; [auto|]. intros [Q|Q]; [injection Q as _ ->; auto|eauto]. Qed.
  Lemma ended_source o (x : outc V) tr sI sR i v : match x with Returns r => post E o r tr sI sR | Panics m => pan E o m tr sI sR end ->
    grows o = true -> In (AcInit i v) tr -> offers o v.
  Proof.
    intros P Gr Hin. pose proof (eff_in _ _ Hin eq_refl) as He.
    assert (GP : forall n it b m, grow_pan n it b m tr sI sR -> In (Some v) (firstn n it)).
    { intros n it b m [(_ & _ & _ & Q)|(_ & vs & L & Q & Hit)]; rewrite Q in He; simpl in He.
      - destruct He as [He|[]]. discriminate.
      - destruct He as [He|He]; [discriminate|]. apply inits_in in He. eapply prefix_in; [| |exact He]; [lia|].
        destruct Hit as [[_ ->]|[_ (it' & ->)]]; [exists []; now rewrite app_nil_r|eauto]. }
    destruct x as [r|m].
    - destruct (post_grows E _ _ _ _ _ P Gr) as (b & vs & -> & Sp & L & Q). rewrite Q in He. destruct He as [He|He]; [discriminate|].
      apply inits_in in He. destruct o; try discriminate; simpl in *.
      + subst vs. destruct He as [<-|[]]. reflexivity.
      + destruct Sp as (w & Hf & ->). destruct He as [<-|[]]. eauto.
      + eapply firstn_map_in; [apply Sp|assumption].
      + destruct Sp as (it & Hf & Sp & _). exists b, it. split; [assumption|]. eapply firstn_map_in; eauto.
      + eapply firstn_map_in; [apply Sp|assumption].
    - destruct o; try discriminate; simpl in *.
      + destruct P as (b & _ & _ & Q). rewrite Q in He. destruct He as [He|[]]. discriminate.
      + destruct P as (b & Q & _). rewrite Q in He. destruct He as [He|[]]. discriminate.
      + destruct P as (b & P). eauto.
      + destruct P as (b & [(_ & _ & _ & Q)|[(_ & _ & Q & _)|[(_ & _ & Q & _)|(it & Hf & P)]]]);
          try (rewrite Q in He; destruct He as [He|[]]; discriminate). exists b, it. split; [assumption|]. eauto.
      + destruct P as (b & P). eauto.
  Qed.

  Lemma reserved_add (h : list (event V)) k i id m : a_pos (before (abs0 l0 m) h k) i = Reserved id ->
    exists j t b n, j < k /\ nth_error h j = Some (EAcc id t (AcAdd b n)).
  Proof.
    induction k as [|k IH]; intros H.
    - unfold before in H. simpl in H. destruct (nth_error l0 i); discriminate.
    - destruct (nth_error h k) as [e|] eqn:He.
      + rewrite (before_S _ h k e He) in H.
        assert (K : a_pos (before (abs0 l0 m) h k) i = Reserved id -> exists j t b n, j < S k /\ nth_error h j = Some (EAcc id t (AcAdd b n))).
        { intros Q. destruct (IH Q) as (j & t & b & n & Hj & Q'). exists j, t, b, n. split; [lia|assumption]. }
        destruct e as [| |id' t mm|id' t [b n|j w|j w|j old w|j q x y|j x|n|n]| |]; simpl in H; auto.
        * destruct (a_pos (before (abs0 l0 m) h k) i) as [|j| |] eqn:Q; try discriminate. destruct (j =? id'); [discriminate|]. apply K. congruence.
        * destruct (in_range b n i); [|auto]. injection H as <-. exists k, t, b, n. split; [lia|assumption].
        * unfold upd in H. destruct (i =? j); [discriminate|auto].
        * unfold upd in H. destruct (i =? j); [discriminate|auto].
        * unfold upd in H. destruct (i =? q); [discriminate|]. destruct (i =? j); [discriminate|auto].
        * discriminate.
      + apply nth_error_None in He. unfold before in *. rewrite firstn_all2 in H by lia. rewrite firstn_all2 in IH by lia.
        destruct (IH H) as (j & t & b & n & Hj & Q). exists j, t, b, n. split; [lia|assumption].
  Qed.
  Theorem execution_source c : execution c -> forall k id t x, nth_error (hist c) k = Some (EAcc id t x) ->
    exists o, called (hist c) id o /\ source o x.
  Proof.
    intros X k id t x Hk. destruct (execution_source' c X k id t x Hk) as (o & Ho & S). exists o. split; [assumption|].
    destruct x; auto. simpl in *. clear S.
    destruct (complete E ro nl l0 c0 m0 c X) as (c' & (_ & h' & Hh & _) & X' & Dn).
    assert (Hk' : nth_error (hist c') k = Some (EAcc id t (AcInit i v))) by (rewrite Hh, nth_error_app1; [assumption|now apply nth_lt in Hk]).
    assert (Ho' : exists u, nth_error (hist c') id = Some (EInv id u o)).
    { destruct Ho as (u & Ho). exists u. rewrite Hh, nth_error_app1; [assumption|now apply nth_lt in Ho]. }
    destruct Ho' as (u & Ho').
    destruct (execution_expl _ _ _ _ _ _ c' X') as (snap & Ex & _).
    assert (Hin : In (AcInit i v) (accs id (hist c'))).
    { rewrite <- (firstn_all (hist c')). eapply firstn_accs; [|exact Hk']. now apply nth_lt in Hk'. }
    (* the call is a growth call *)
    assert (Gr : grows o = true).
    { destruct (h_ev _ _ _ _ _ _ _ Ex k _ Hk') as (_ & Lg & _). simpl in Lg.
      destruct (reserved_add _ _ _ _ _ Lg) as (j & w & b & n & _ & Hj).
      destruct (execution_source' c' X' j id w _ Hj) as (o' & (w' & Ho2) & Gr & _). rewrite Ho' in Ho2. injection Ho2 as _ <-. assumption. }
    destruct (existsb (is_end id) (hist c')) eqn:En.
    - apply existsb_exists in En. destruct En as (e & Hine & En). apply in_nth in Hine. destruct Hine as (r & Hr).
      rewrite (accs_all _ _ _ _ _ _ _ Ex id r e Hr En) in Hin.
      destruct e as [|id' w rv|id' w m| | |]; try discriminate; simpl in En; apply Nat.eqb_eq in En; subst id'.
      + destruct (h_ret _ _ _ _ _ _ _ Ex r id w rv Hr) as (o' & _ & Ho2 & _ & _ & P & _). rewrite Ho' in Ho2. injection Ho2 as _ <-.
        eapply (ended_source o (Returns rv)); eauto.
      + destruct (h_pan _ _ _ _ _ _ _ Ex r id w m Hr) as (o' & _ & Ho2 & _ & _ & P). rewrite Ho' in Ho2. injection Ho2 as _ <-.
        eapply (ended_source o (Panics m)); eauto.
    - exfalso. apply (Dn id u o).
      + split; assumption.
      + unfold direct. rewrite Gr. apply orb_true_r.
      + exists (AcInit i v). split; [assumption|reflexivity].
  Qed.
End Source.

(** * The values in the vector *)
Section Conserve.
  Context {V : Type}.
  Definition vals_of (f : nat -> option V) (n : nat) : list V :=
    flat_map (fun i => match f i with Some v => [v] | None => [] end) (seq 0 n).
  Lemma vals_ext f g n : (forall j, j < n -> f j = g j) -> vals_of f n = vals_of g n.
  Proof.
    intros H. unfold vals_of. induction n as [|n IH]; [reflexivity|]. rewrite seq_S, !flat_map_app. f_equal; [apply IH; auto|].
    simpl. change (0 + n) with n. rewrite H by lia. reflexivity.
  Qed.
  Lemma vals_S f n : vals_of f (S n) = vals_of f n ++ match f n with Some v => [v] | None => [] end.
  Proof. unfold vals_of. rewrite seq_S, flat_map_app. simpl. now rewrite app_nil_r. Qed.
  Lemma vals_put f g n i v : i < n -> f i = None -> g i = Some v -> (forall j, j <> i -> g j = f j) -> Permutation (vals_of g n) (v :: vals_of f n).
  Proof.
    intros Hi Hf Hg Hj. induction n as [|n IH]; [lia|]. rewrite !vals_S. destruct (Nat.eq_dec i n) as [e|N].
    - subst n. rewrite Hf, Hg, app_nil_r. rewrite (vals_ext g f) by (intros j Q; apply Hj; lia).
      apply Permutation_sym, Permutation_cons_append.
    - rewrite (Hj n) by lia. change (v :: vals_of f n ++ match f n with Some v0 => [v0] | None => [] end)
        with ((v :: vals_of f n) ++ match f n with Some v0 => [v0] | None => [] end). apply Permutation_app_tail. apply IH. lia.
  Qed.
  Lemma vals_more f n k : (forall j, n <= j -> f j = None) -> vals_of f (n + k) = vals_of f n.
  Proof.
    intros H. induction k as [|k IH]; [now rewrite Nat.add_0_r|]. rewrite Nat.add_succ_r, vals_S, IH, (H (n + k)) by lia. apply app_nil_r.
  Qed.
  Lemma vals_none f n : (forall j, j < n -> f j = None) -> vals_of f n = [].
  Proof. intros H. induction n as [|n IH]; [reflexivity|]. rewrite vals_S, IH, H by auto. reflexivity. Qed.
  Lemma contents_vals (a : abs V) : contents a = vals_of (value a) (a_len a).
  Proof. reflexivity. Qed.
  Lemma vals_list (l : list V) : vals_of (fun i => nth_error l i) (length l) = l.
  Proof.
    induction l as [|x l IH] using rev_ind; [reflexivity|]. rewrite app_length, Nat.add_1_r, vals_S, nth_error_app2, Nat.sub_diag by lia. simpl.
    f_equal. rewrite <- IH at 2. apply vals_ext. intros j Hj. now apply nth_error_app1.
  Qed.
  Lemma contents0 (l : list V) m : contents (abs0 l m) = l.
  Proof.
    rewrite contents_vals. simpl. rewrite <- (vals_list l) at 3. apply vals_ext. intros j Hj. unfold value. simpl. now destruct (nth_error l j).
  Qed.

  Lemma taken_app (a : abs V) h1 h2 : taken_out a (h1 ++ h2) = taken_out a h1 ++ taken_out (replay a h1) h2.
  Proof. revert a. induction h1 as [|e h1 IH]; intros a; simpl; [reflexivity|]. now rewrite IH, app_assoc. Qed.
  Lemma put_in_app (h1 h2 : list (event V)) : put_in (h1 ++ h2) = put_in h1 ++ put_in h2.
  Proof. apply flat_map_app. Qed.

  Context (l0 : list V) (m0 : nat) (h : list (event V)).
  Context (L : lawful l0 m0 h).
  Notation a0 := (abs0 l0 m0).
  Notation at_ k := (before a0 h k).

  Lemma beyond_none k j : k <= length h -> a_len (at_ k) <= j -> value (at_ k) j = None.
  Proof.
    intros Hk Hj. unfold value. destruct (a_pos (at_ k) j) as [| | |v] eqn:Hp; try reflexivity.
    pose proof (l_has_len l0 m0 h L k j v Hk Hp). lia.
  Qed.
  Lemma value_len k i v : k <= length h -> value (at_ k) i = Some v -> i < a_len (at_ k).
  Proof. intros Hk Hv. destruct (Nat.lt_ge_cases i (a_len (at_ k))); [assumption|]. rewrite beyond_none in Hv by assumption. discriminate. Qed.

  Lemma conserved_at k : k <= length h -> Permutation (l0 ++ put_in (firstn k h)) (contents (at_ k) ++ taken_out a0 (firstn k h)).
  Proof.
    induction k as [|k IH]; intros Hk.
    - simpl. change (at_ 0) with a0. rewrite contents0. apply Permutation_refl.
    - specialize (IH ltac:(lia)). destruct (nth_error h k) as [e|] eqn:He; [|apply nth_error_None in He; lia].
      rewrite (firstn_S h k e He), put_in_app, taken_app. change (replay a0 (firstn k h)) with (at_ k).
      assert (P : forall p t, put_in [e] = p -> taken1 (at_ k) e = t -> Permutation (contents (at_ k) ++ p) (contents (at_ (S k)) ++ t) ->
                  Permutation (l0 ++ put_in (firstn k h) ++ put_in [e]) (contents (at_ (S k)) ++ taken_out a0 (firstn k h) ++ taken_out (at_ k) [e])).
      { intros p t -> Ht P. simpl. rewrite Ht, app_nil_r. rewrite app_assoc. rewrite IH.
        rewrite <- app_assoc. rewrite (Permutation_app_comm (taken_out a0 (firstn k h)) p), app_assoc, P, <- app_assoc.
        apply Permutation_app_head. apply Permutation_app_comm. }
      assert (Sm : (forall j, ~ changes j e) -> a_len (at_ (S k)) = a_len (at_ k) -> contents (at_ (S k)) = contents (at_ k)).
      { intros N Hl. rewrite !contents_vals, Hl. apply vals_ext. intros j _. apply (l_value l0 m0 h L k e j He). auto. }
      pose proof (before_S a0 h k e He) as B. pose proof (L k e He) as (_ & Lg).
      assert (Vj : forall j, ~ changes j e -> value (at_ (S k)) j = value (at_ k) j) by (intros j N; apply (l_value l0 m0 h L k e j He N)).
      destruct e as [id t o|id t v|id t m|id t [b n|i v|i v|i old w|i j v w|i x|n|n]| |n m];
        try (apply (P [] []); [reflexivity|reflexivity|]; rewrite !app_nil_r, Sm; [apply Permutation_refl|simpl; tauto|rewrite B; reflexivity]).
      + (* AcAdd *) apply (P [] []); [reflexivity|reflexivity|]. rewrite !app_nil_r, !contents_vals.
        replace (a_len (at_ (S k))) with (a_len (at_ k) + n) by (rewrite B; reflexivity).
        rewrite (vals_more _ (a_len (at_ k)) n).
        * rewrite (vals_ext (value (at_ (S k))) (value (at_ k))); [apply Permutation_refl|]. intros j _. apply Vj. simpl. tauto.
        * intros j Hj. rewrite Vj by (simpl; tauto). apply beyond_none; [lia|assumption].
      + (* AcInit *) apply (P [v] []); [reflexivity|reflexivity|]. rewrite app_nil_r, !contents_vals. simpl in Lg.
        assert (Hv : value (at_ (S k)) i = Some v) by (rewrite B; unfold value; simpl; now rewrite upd_same).
        pose proof (value_len (S k) i v ltac:(lia) Hv) as Hi. replace (a_len (at_ (S k))) with (a_len (at_ k)) in * by (rewrite B; reflexivity).
        rewrite (vals_put (value (at_ k)) (value (at_ (S k))) (a_len (at_ k)) i v); auto.
        * apply Permutation_sym, Permutation_cons_append.
        * unfold value. now rewrite Lg.
      + (* AcWrite *) apply (P [w] [old]); [reflexivity|reflexivity|]. rewrite !contents_vals. simpl in Lg.
        assert (Hv : value (at_ (S k)) i = Some w) by (rewrite B; unfold value; simpl; now rewrite upd_same).
        assert (Ho : value (at_ k) i = Some old) by (unfold value; now rewrite Lg).
        pose proof (value_len k i old ltac:(lia) Ho) as Hi. replace (a_len (at_ (S k))) with (a_len (at_ k)) in * by (rewrite B; reflexivity).
        set (f := upd (value (at_ k)) i None).
        assert (Vf : forall j, j <> i -> f j = value (at_ k) j) by (intros j Hj; unfold f; now rewrite upd_other).
        rewrite (vals_put f (value (at_ (S k))) (a_len (at_ k)) i w), (vals_put f (value (at_ k)) (a_len (at_ k)) i old); auto.
        * simpl. rewrite <- (Permutation_cons_append (vals_of f _) w), <- (Permutation_cons_append (vals_of f _) old). apply perm_swap.
        * unfold f. apply upd_same.
        * intros j Hj. symmetry. now apply Vf.
        * unfold f. apply upd_same.
        * intros j Hj. rewrite Vj by (simpl; congruence). symmetry. now apply Vf.
      + (* AcSwap *) apply (P [] []); [reflexivity|reflexivity|]. rewrite !app_nil_r, !contents_vals. simpl in Lg. destruct Lg as (N & Li & Lj).
        assert (Hi' : value (at_ (S k)) i = Some w) by (rewrite B; unfold value; simpl; rewrite upd_other by congruence; now rewrite upd_same).
        assert (Hj' : value (at_ (S k)) j = Some v) by (rewrite B; unfold value; simpl; now rewrite upd_same).
        assert (Hi : value (at_ k) i = Some v) by (unfold value; now rewrite Li).
        assert (Hj : value (at_ k) j = Some w) by (unfold value; now rewrite Lj).
        pose proof (value_len k i v ltac:(lia) Hi) as Li'. pose proof (value_len k j w ltac:(lia) Hj) as Lj'.
        replace (a_len (at_ (S k))) with (a_len (at_ k)) in * by (rewrite B; reflexivity).
        set (f1 := upd (value (at_ k)) i None). set (f2 := upd f1 j None). set (f1' := upd (value (at_ (S k))) i None).
        rewrite (vals_put f1 (value (at_ k)) (a_len (at_ k)) i v); auto;
          [|unfold f1; apply upd_same|intros q Hq; unfold f1; now rewrite upd_other].
        rewrite (vals_put f2 f1 (a_len (at_ k)) j w); auto;
          [|unfold f2; apply upd_same|unfold f1; rewrite upd_other by congruence; assumption|intros q Hq; unfold f2; now rewrite upd_other].
        rewrite (vals_put f1' (value (at_ (S k))) (a_len (at_ k)) i w); auto;
          [|unfold f1'; apply upd_same|intros q Hq; unfold f1'; now rewrite upd_other].
        rewrite (vals_put f2 f1' (a_len (at_ k)) j v); auto.
        * apply perm_swap.
        * unfold f2. apply upd_same.
        * unfold f1'. rewrite upd_other by congruence. assumption.
        * intros q Hq. unfold f1', f2, f1. rewrite (upd_other _ j) by assumption. unfold upd. destruct (Nat.eqb_spec q i) as [|Nq]; [reflexivity|].
          apply Vj. simpl. intros [Q|Q]; congruence.
      + (* clear *) apply (P [] (contents (at_ k))); [reflexivity|reflexivity|]. rewrite app_nil_r.
        replace (contents (at_ (S k))) with (@nil V) by (rewrite B; reflexivity). apply Permutation_refl.
  Qed.

  (** ** the last value stored at a position *)
  Lemma latest k i v : k <= length h -> value (at_ k) i = Some v ->
    (nth_error l0 i = Some v /\ forall q e w, q < k -> nth_error h q = Some e -> ~ stores i w e /\ e <> EClear) \/
    exists j e, j < k /\ nth_error h j = Some e /\ stores i v e /\
      forall q e' w, j < q < k -> nth_error h q = Some e' -> ~ stores i w e' /\ e' <> EClear.
  Proof.
    induction k as [|k IH]; intros Hk Hv.
    - left. split; [|lia]. unfold value in Hv. simpl in Hv. destruct (nth_error l0 i); simpl in Hv; congruence.
    - destruct (nth_error h k) as [e|] eqn:He; [|apply nth_error_None in He; lia].
      pose proof (before_S a0 h k e He) as B. pose proof (L k e He) as (_ & Lg).
      destruct (changes_dec i e) as [C|C].
      + right. exists k, e. split; [lia|]. split; [assumption|]. split; [|lia].
        rewrite B in Hv. unfold value in Hv.
        destruct e as [| | |id t [b n|j w|j w|j old w|j q x y|j x|n|n]| |]; simpl in *; try contradiction; try discriminate.
        * subst j. rewrite upd_same in Hv. simpl in Hv. split; congruence.
        * subst j. rewrite upd_same in Hv. simpl in Hv. split; congruence.
        * unfold upd in Hv. destruct (Nat.eqb_spec i q) as [->|N1]; [left; simpl in Hv; split; congruence|].
          destruct (Nat.eqb_spec i j) as [->|N2]; [right; simpl in Hv; repeat split; congruence|]. destruct C; congruence.
      + rewrite (l_value l0 m0 h L k e i He C) in Hv.
        assert (N : forall w, ~ stores i w e /\ e <> EClear).
        { intros w. split; [|intros ->; now apply C]. intros S. apply C. destruct e as [| | |id t []| |]; simpl in *; tauto. }
        destruct (IH ltac:(lia) Hv) as [[H1 H2]|(j & e' & Hj & He' & S & U)].
        * left. split; [assumption|]. intros q e' w Hq Hn. destruct (Nat.eq_dec q k) as [->|]; [|eapply H2; [|exact Hn]; lia].
          rewrite He in Hn. injection Hn as <-. apply N.
        * right. exists j, e'. split; [lia|]. split; [assumption|]. split; [assumption|]. intros q e2 w Hq Hn.
          destruct (Nat.eq_dec q k) as [->|]; [|eapply U; [|exact Hn]; lia]. rewrite He in Hn. injection Hn as <-. apply N.
  Qed.
End Conserve.

(** ** no update is lost *)
Section Count.
  Context {V : Type} (l0 : list V) (m0 : nat) (h : list (event V)).
  Context (L : lawful l0 m0 h).
  Hypothesis Src : forall k id t x, nth_error h k = Some (EAcc id t x) -> exists o, called h id o /\ source o x.
  Hypothesis Ups : forall id r i f x, ended h id r (OElem i (EUpdate f)) x -> exists old new, eff (accs id (firstn r h)) = [AcWrite i old new].
  Notation a0 := (abs0 l0 m0).
  Lemma counted i v f : at_rest h -> nth_error l0 i = Some v -> ~ In EClear h ->
    (forall id o old new, called h id o -> replaces o i old new -> o = OElem i (EUpdate f)) ->
    (forall id o j k, called h id o -> exchanges o j k -> j <> i /\ k <> i) ->
    value (replay a0 h) i = Some (times (update_calls i h) (fun u => fst (f u)) v).
  Proof.
    intros R Hv NC Wr Sw.
    set (wr := fun e : event V => match e with EAcc _ _ (AcWrite j _ _) => j =? i | _ => false end).
    set (up := fun e : event V => match e with EInv _ _ o => updates_at i o | _ => false end).
    set (g := fun u => fst (f u)).
    (* the value, by the number of writes *)
    assert (K : forall k, k <= length h -> value (before a0 h k) i = Some (times (length (filter wr (firstn k h))) g v)).
    { induction k as [|k IH]; intros Hk.
      - unfold before, value. simpl. rewrite Hv. reflexivity.
      - specialize (IH ltac:(lia)). destruct (nth_error h k) as [e|] eqn:He; [|apply nth_error_None in He; lia].
        rewrite (firstn_S h k e He), filter_app, app_length. destruct (changes_dec i e) as [C|C].
        + pose proof (L k e He) as (_ & Lg). pose proof (before_S a0 h k e He) as B.
          destruct e as [| | |id t [b n|j w|j w|j old w|p q x y|j x|n|n]| |]; simpl in C; try contradiction.
          * subst j. simpl in Lg. unfold value in IH. rewrite Lg in IH. discriminate.
          * subst j. destruct (Src k id t _ He) as (o & Ho & S). simpl in S.
            pose proof (Wr id o old w Ho S) as ->. simpl in S. destruct S as [_ ->]. simpl in Lg.
            unfold value in IH. rewrite Lg in IH. injection IH as ->. rewrite B. unfold value. simpl. rewrite upd_same, Nat.eqb_refl. simpl.
            rewrite Nat.add_1_r. reflexivity.
          * exfalso. destruct (Src k id t _ He) as (o & Ho & S). simpl in S.
            destruct (Sw id o p q Ho S). destruct C; congruence.
          * exfalso. apply NC. eapply nth_error_In; eauto.
        + rewrite (l_value l0 m0 h L k e i He C), IH. assert (We : wr e = false).
          * destruct e as [| | |id t []| |]; simpl in *; try reflexivity. now apply Nat.eqb_neq.
          * cbn [filter]. rewrite We. simpl. rewrite Nat.add_0_r. reflexivity. }
    rewrite <- (before_all a0 h (length h)), K by lia. rewrite firstn_all. f_equal. unfold update_calls. fold up.
    (* as many writes as calls *)
    set (wid := fun e : event V => match e with EAcc id _ (AcWrite _ _ _) => id | _ => 0 end).
    set (uid := fun e : event V => match e with EInv id _ _ => id | _ => 0 end).
    assert (Inj : forall (p : event V -> bool) (q : event V -> nat),
      (forall j k e e', nth_error h j = Some e -> nth_error h k = Some e' -> p e = true -> p e' = true -> q e = q e' -> j = k) ->
      NoDup (map q (filter p h))).
    { intros p q. clear. induction h as [|e l IH]; intros H; [constructor|]. simpl.
      assert (IH' : NoDup (map q (filter p l))).
      { apply IH. intros j k e1 e2 H1 H2 P1 P2 Q. pose proof (H (S j) (S k) e1 e2 H1 H2 P1 P2 Q). lia. }
      destruct (p e) eqn:Pe; [|assumption]. simpl. constructor; [|assumption]. intros Hin. apply in_map_iff in Hin.
      destruct Hin as (e' & Q & Hin). apply filter_In in Hin. destruct Hin as [Hin Pe']. apply in_nth in Hin. destruct Hin as (k & Hk).
      pose proof (H 0 (S k) e e' eq_refl Hk Pe Pe' (eq_sym Q)). lia. }
    (* an update call that has ended *)
    assert (U : forall id t o, nth_error h id = Some (EInv id t o) -> updates_at i o = true ->
      exists k u old new, nth_error h k = Some (EAcc id u (AcWrite i old new)) /\
        forall k' u' y, nth_error h k' = Some (EAcc id u' y) -> k' <> k -> is_eff y = false).
    { intros id t o Ho Hu. destruct (updates_at_inv i o Hu) as (f' & ->).
      destruct (existsb (is_end id) h) eqn:En; [|exfalso; eapply (R id t); split; eauto].
      apply existsb_exists in En. destruct En as (e & Hin & En). apply in_nth in Hin. destruct Hin as (r & Hr).
      assert (exists old new, eff (accs id (firstn r h)) = [AcWrite i old new]) as (old & new & Ef).
      { destruct (l_end l0 m0 h L r id e Hr En) as (w & o' & _ & Ho2 & _ & _ & Q). rewrite Ho in Ho2. injection Ho2 as -> <-.
        destruct Q as [(rv & ->)|(m & ->)]; [apply (Ups id r i f' (Returns rv))|apply (Ups id r i f' (Panics m))]; exists w; auto. }
      destruct (l_one_eff l0 m0 h L id r e _ Hr En Ef) as (k & u & _ & Hk & _ & Un). exists k, u, old, new. auto. }
    (* the call of a write *)
    assert (W : forall k id t old new, nth_error h k = Some (EAcc id t (AcWrite i old new)) ->
      exists u, nth_error h id = Some (EInv id u (OElem i (EUpdate f)))).
    { intros k id t old new Hk. destruct (Src k id t _ Hk) as (o & Ho & S). simpl in S.
      pose proof (Wr id o old new Ho S) as ->. exact Ho. }
    assert (Ln : length (map wid (filter wr h)) = length (map uid (filter up h))).
    { apply Permutation_length, NoDup_Permutation.
      - apply Inj. intros j k e e' Hj Hk Pe Pe' Q.
        destruct e as [| | |id t [| | |p old new| | | |]| |]; try discriminate. destruct e' as [| | |id' t' [| | |p' old' new'| | | |]| |]; try discriminate.
        simpl in *. apply Nat.eqb_eq in Pe, Pe'. subst p p' id'. destruct (W _ _ _ _ _ Hj) as (u & Hu).
        destruct (U id u _ Hu) as (q & w & o1 & n1 & Hq & Un); [simpl; apply Nat.eqb_refl|].
        destruct (Nat.eq_dec j q) as [->|N]; [|discriminate (Un _ _ _ Hj N)].
        destruct (Nat.eq_dec k q) as [->|N]; [reflexivity|discriminate (Un _ _ _ Hk N)].
      - apply Inj. intros j k e e' Hj Hk Pe Pe' Q. destruct e as [id t o| | | | |]; try discriminate. destruct e' as [id' t' o'| | | | |]; try discriminate.
        simpl in Q. pose proof (l_inv l0 m0 h L _ _ _ _ Hj). pose proof (l_inv l0 m0 h L _ _ _ _ Hk). congruence.
      - intros id. rewrite !in_map_iff. split.
        + intros (e & Q & Hin). apply filter_In in Hin. destruct Hin as [Hin Pe]. apply in_nth in Hin. destruct Hin as (k & Hk).
          destruct e as [| | |id' t [| | |p old new| | | |]| |]; try discriminate. simpl in *. apply Nat.eqb_eq in Pe. subst p id'.
          destruct (W _ _ _ _ _ Hk) as (u & Hu). exists (EInv id u (OElem i (EUpdate f))). split; [reflexivity|].
          apply filter_In. split; [eapply nth_error_In; eauto|]. simpl. apply Nat.eqb_refl.
        + intros (e & Q & Hin). apply filter_In in Hin. destruct Hin as [Hin Pe]. apply in_nth in Hin. destruct Hin as (k & Hk).
          destruct e as [id' t o| | | | |]; try discriminate. simpl in *. subst id'. pose proof (l_inv l0 m0 h L _ _ _ _ Hk). subst k.
          destruct (U id t o Hk Pe) as (k & u & old & new & Hk' & _). exists (EAcc id u (AcWrite i old new)). split; [reflexivity|].
          apply filter_In. split; [eapply nth_error_In; eauto|]. simpl. apply Nat.eqb_refl. }
    rewrite !map_length in Ln. congruence.
  Qed.
End Count.
