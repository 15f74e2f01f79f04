(** * Who waits for whom. *)

From Coq Require Import List Arith Bool Lia.
From Verif.Model Require Import Prog Mem Deps State Elem Vec Excl Machine.
From Verif Require Import Client Spec.
From Verif.Logic Require Import Inv WP Post Specs Ops Sound Shape Clients Hist Locks Facts Complete Trace Stuck.
Import ListNotations.
Local Arguments Nat.leb : simpl never.
Local Arguments Nat.ltb : simpl never.
Local Arguments Nat.eqb : simpl never.
Local Arguments Nat.add : simpl never.
Local Arguments Nat.sub : simpl never.
Local Arguments Nat.max : simpl never.

Section Waits.
  Context {V : Type} (E : env V).
  Notation prog := (prog V).

  (** The loops of a program: it waits for an element in use, or for the capacity to reach [b]. *)
  Definition loop_ok (b : nat) (a : act V) : (res a -> bool) -> Prop :=
    match a return (res a -> bool) -> Prop with
    | CasSt i SOME RESERVED => fun ag => forall r, ag r = true -> fst r = false /\ snd r = RESERVED
    | LoadCap => fun ag => forall c, ag c = true -> c < b
    | _ => fun _ => False
    end.
  Fixpoint loops (b : nat) {R} (p : prog R) : Prop :=
    match p with
    | Ret _ | Pan _ => True
    | Act _ k => forall x, loops b (k x)
    | Spin a ag k => loop_ok b a ag /\ forall x, loops b (k x)
    end.
  Lemma loops_bind b {A B} (p : prog A) (f : A -> prog B) : loops b p -> (forall x, loops b (f x)) -> loops b (bind p f).
  Proof. intros H Hf. induction p as [r|m|a k IH|a ag k IH]; simpl in *; auto. destruct H. auto. Qed.
  Lemma loops_chk b {A} m (o : option A) : loops b (chk m o).
  Proof. destruct o; exact I. Qed.
  Lemma loops_fmap b {A B} (f : A -> B) (p : prog A) : loops b p -> loops b (fmap f p).
  Proof. intros H. apply loops_bind; [assumption|]. intros; exact I. Qed.
  Lemma loops_mapP b {A B} (f : A -> prog B) l : (forall x, loops b (f x)) -> loops b (mapP f l).
  Proof.
    intros H. induction l as [|x l IH]; simpl; [exact I|]. apply loops_bind; [apply H|]. intros y.
    apply loops_bind; [apply IH|]. intros; exact I.
  Qed.
  Lemma loops_foldP b {A B} (f : B -> A -> prog B) l : forall i, (forall i x, loops b (f i x)) -> loops b (foldP f i l).
  Proof. induction l as [|x l IH]; intros i H; simpl; [exact I|]. apply loops_bind; auto. Qed.
  Lemma loops_spin b i : loops b (spin_handle (V:=V) i SOME).
  Proof.
    split; [|intros; exact I]. intros [f s]. simpl. destruct f, s; simpl; try discriminate. auto.
  Qed.

  Local Ltac lp := repeat first
    [ progress intros
    | exact I
    | apply loops_chk | apply loops_spin
    | apply loops_mapP | apply loops_foldP
    | apply loops_bind
    | match goal with
      | |- loops _ (if ?b then _ else _) => destruct b
      | |- loops _ (match ?x with _ => _ end) => destruct x
      | |- loops _ (Act _ _) => simpl
      end ].
  Lemma loops_count b k : forall i, loops b (count_pushed (V:=V) i k).
  Proof. induction k as [|k IH]; intros i; cbn [count_pushed]; unfold is_some_with_order, doo; lp. apply IH. Qed.
  Lemma loops_fill_with b l : forall k f, loops b (fill_elems_with (V:=V) k l f).
  Proof.
    induction l as [|x l IH]; intros k f; cbn [fill_elems_with]; unfold elem_set, option_set_some, drop_handle, doo; lp. apply IH.
  Qed.
  Lemma loops_position b l : forall k v, loops b (position E k l v).
  Proof.
    induction l as [|x l IH]; intros k v; cbn [position]; unfold elem_eq, elem_map, option_map, drop_handle, doo; lp. apply IH.
  Qed.
  Lemma loops_map_elems {U} b l : forall f : nat -> V -> option U, loops b (map_elems l f).
  Proof.
    induction l as [|x l IH]; intros f; cbn [map_elems]; unfold elem_map, option_map, drop_handle, doo; lp. apply IH.
  Qed.
  Lemma loops_fold_elems {U} b l : forall (u : U) f, loops b (fold_elems (V:=V) l u f).
  Proof.
    induction l as [|x l IH]; intros u f; cbn [fold_elems]; unfold elem_map, option_map, drop_handle, doo; lp. apply IH.
  Qed.
  Lemma loops_filter b l : forall f, loops b (filter_elems (V:=V) l f).
  Proof.
    induction l as [|x l IH]; intros f; cbn [filter_elems]; unfold elem_map, option_map, drop_handle, doo; lp. apply IH.
  Qed.
  Lemma loops_eq b l : forall vs, loops b (eq_elems_list E l vs).
  Proof.
    induction l as [|x l IH]; intros vs; destruct vs; cbn [eq_elems_list]; unfold option_map, drop_handle, doo; lp. apply IH.
  Qed.
  Lemma loops_write b n : forall i it, loops b (write_items (V:=V) i n it).
  Proof.
    induction n as [|n IH]; intros i it; cbn [write_items]; unfold initialize_unchecked, doo; lp. apply IH.
  Qed.

  Lemma loops_refs b l : loops b (refs_of (V:=V) l).
  Proof. induction l as [|x l IH]; cbn [refs_of]; unfold is_some_with_order, doo; lp. apply IH. Qed.
  Lemma loops_len b : loops b (vec_len (V:=V)).
  Proof. unfold vec_len, core_capacity, core_iter_over_range, doo. lp. apply loops_count. Qed.
  Lemma loops_single i : loops i (single_item_as_ref (V:=V) i).
  Proof.
    intros m. simpl. destruct (i <? m); [|exact I]. split.
    - intros c. unfold write_permit. destruct (Nat.compare_spec i c); simpl; try discriminate. auto.
    - intros c. destruct (write_permit i c); try exact I. intros [|]; simpl; auto.
  Qed.
  Lemma loops_buffer b n : loops b (n_items_buffer E b n).
  Proof.
    unfold n_items_buffer. destruct (n =? 0); [exact I|]. apply loops_bind; [apply loops_chk|]. intros e.
    apply loops_bind; [apply loops_chk|]. intros l m. simpl. destruct (l <? m); [|exact I]. split.
    - intros c. unfold write_permit_n_items. destruct (Nat.compare_spec b c), (Nat.compare_spec l c); simpl; try discriminate; auto.
    - intros c. destruct (write_permit_n_items b l c); try exact I. intros [|]; simpl; auto.
  Qed.
  Local Ltac head_of t := match t with ?f _ => head_of f | _ => t end.
  Local Ltac lp1 :=
    match goal with
    | |- forall _, _ => intros ?
    | |- loops _ (Ret _) => exact I
    | |- loops _ (Pan _) => exact I
    | |- loops _ (bind _ _) => apply loops_bind
    | |- loops _ (fmap _ _) => apply loops_fmap
    | |- loops _ (doo _) => intros ?; exact I
    | |- loops _ vec_len => apply loops_len
    | |- loops _ (fill_elems_with _ _ _) => apply loops_fill_with
    | |- loops _ (position _ _ _ _) => apply loops_position
    | |- loops _ (map_elems _ _) => apply loops_map_elems
    | |- loops _ (fold_elems _ _ _) => apply loops_fold_elems
    | |- loops _ (filter_elems _ _) => apply loops_filter
    | |- loops _ (eq_elems_list _ _ _) => apply loops_eq
    | |- loops _ (refs_of _) => apply loops_refs
    | |- loops _ (spin_handle _ _) => apply loops_spin
    | |- loops _ (chk _ _) => apply loops_chk
    | |- loops _ (mapP _ _) => apply loops_mapP
    | |- loops _ (foldP _ _ _) => apply loops_foldP
    | |- loops _ (if ?b then _ else _) => destruct b
    | |- loops _ (match ?x with _ => _ end) => destruct x
    | |- loops _ ?p => let h := head_of p in unfold h; cbv beta zeta
    end.
  Lemma op_loops o b : grows o = false -> loops b (op_prog E o).
  Proof.
    intros G.
    destruct o as [| | | | | | | | | | | | | | | | | | | | | | | | | | | | | | | | |i []|x []| | | |]; try discriminate;
      cbn [op_prog eop_prog sop_prog];
      repeat lp1.
  Qed.
  Lemma grow_loops o : grows o = true -> exists k, op_prog E o = Act (AddResv (request o) Relaxed) k /\ forall b : nat, loops b (k b).
  Proof.
    intros G. destruct o; try discriminate; (eexists; split; [reflexivity|]); intros b; cbn beta.
    - apply loops_bind; [|intros; exact I]. apply (loops_bind b (single_item_as_ref b)); [apply loops_single|]. intros _. simpl. auto.
    - apply loops_bind; [|intros; exact I]. apply (loops_bind b (chk PClosure (f b))); [apply loops_chk|]. intros v.
      apply loops_bind; [apply loops_single|]. intros _. simpl. auto.
    - apply loops_bind; [|intros; exact I]. apply (loops_bind b (n_items_buffer E b claimed)); [apply loops_buffer|]. intros _.
      apply loops_bind; [apply loops_write|]. intros; exact I.
    - apply loops_bind; [|intros; exact I]. apply (loops_bind b (n_items_buffer E b n)); [apply loops_buffer|]. intros _.
      apply loops_bind; [apply loops_chk|]. intros [m it]. simpl. destruct (m =? n); [|exact I].
      apply loops_bind; [apply loops_write|]. intros; exact I.
    - apply loops_bind; [|intros; exact I]. apply (loops_bind b (n_items_buffer E b n)); [apply loops_buffer|]. intros _.
      apply loops_bind; [apply loops_write|]. intros; exact I.
  Qed.
End Waits.

Section Exec.
  Context {V : Type} (E : env V) (ro nl : bool) (l0 : list V) (c0 m0 : nat).
  Notation execution := (execution E ro nl l0 c0 m0).
  Implicit Types (c : cfg V) (p : prog V (ret V)).
  Notation a0 := (abs0 l0 m0).

  (** ** where a growth call waits: below the positions it reserved *)
  Definition based (o : op V) (tr : list (acc V)) p : Prop :=
    (grows o = true /\ p = op_prog E o /\ forall b n, ~ In (AcAdd b n) tr) \/
    (exists b, loops b p /\ tail o p /\ (grows o = true -> In (AcAdd b (request o)) tr) /\ (grows o = false -> b = 0) /\
       forall b' n', In (AcAdd b' n') tr -> b' = b /\ n' = request o).

  Lemma exec_add t (a : act V) s y s' l b n : exec E t a s = Done y s' l -> In (AcAdd b n) l -> exists r, a = AddResv n r.
  Proof.
    destruct a; simpl; unfold with_slot; intros H Hin;
      repeat match goal with
             | H : context [if ?b then _ else _] |- _ => destruct b
             | H : context [match ?b with _ => _ end] |- _ => destruct b
             end; try discriminate; injection H as <- <- <-; simpl in Hin; try contradiction;
      destruct Hin as [X|[]]; try discriminate; injection X as <- <-; eauto.
  Qed.

  Definition base c : Prop := forall t x, lookup t (run c) = Some x -> based (c_op x) (accs (c_id x) (hist c)) (c_prog x).

  Lemma step_base c l c' : execution c -> base c -> client E ro nl (length l0) c l -> step E c l = Next c' -> base c'.
  Proof.
    intros X HB C S. destruct (execution_world _ _ _ _ _ _ c X) as (snap & g & W). pose proof (w_gi _ _ _ _ _ _ _ _ W) as G.
    pose proof (gi_nodup _ _ _ _ _ _ _ _ G) as Nd.
    assert (K : forall t e gv, (forall id u z, e <> EAcc id u z) -> base (Cfg (sh c) (remove t (run c)) (hist c ++ [e]) gv)).
    { intros t e gv Ne u z Hz. simpl in *. apply (remove_lookup _ _ _ _ Nd) in Hz. rewrite accs_snoc by (intros; apply Ne). now apply (HB u). }
    destruct l as [t o|t| |k]; simpl in S.
    - destruct (lookup t (run c)) eqn:Lk; [discriminate|]. destruct (has_grant o (given c)); [|discriminate]. injection S as <-.
      intros u z Hz. simpl in *. rewrite accs_snoc by discriminate. destruct (Nat.eqb_spec u t) as [e|N]; [|now apply (HB u)].
      injection Hz as <-. simpl. rewrite (accs_fresh _ _ _ _ _ _ _ (gi_expl _ _ _ _ _ _ _ _ G)).
      destruct (grows o) eqn:Gr; [left; auto|]. right. exists 0. split; [now apply op_loops|]. split; [now apply op_shape|].
      split; [congruence|]. split; [reflexivity|]. intros b' n' [].
    - unfold step_thread in S. destruct (lookup t (run c)) as [x|] eqn:Lk; [|discriminate].
      assert (ACT : forall p s l, based (c_op x) (accs (c_id x) (hist c) ++ l) p -> base (after t c x p s l)).
      { intros p s l Hb u z. rewrite after_lookup by assumption. destruct (Nat.eqb_spec u t) as [e|N].
        - intros [= <-]. simpl. now rewrite accs_app, accs_map, Nat.eqb_refl.
        - intros Lu. simpl. rewrite accs_app, accs_map. destruct (Nat.eqb_spec (c_id x) (c_id z)) as [e|].
          + destruct (same_call _ _ _ _ _ _ _ _ t x u z G Lk Lu); [auto|contradiction].
          + rewrite app_nil_r. now apply (HB u). }
      destruct (HB t x Lk) as [(Gr & Hp & Na)|(b & Lp & Tl & H1 & H2 & H3)].
      + destruct (grow_loops E (c_op x) Gr) as (k & Hk & Lo). destruct (grow_shape E (c_op x) Gr) as (k' & Hk' & Tl).
        assert (Te : forall y, tail (c_op x) (k y)).
        { intros y. assert (Q : Act (AddResv (request (c_op x)) Relaxed) k = Act (AddResv (request (c_op x)) Relaxed) k') by congruence.
          pose (ff := fun q : prog V (ret V) => match q with Act (AddResv _ _) k => k y | q => q end).
          change (k y) with (ff (Act (AddResv (request (c_op x)) Relaxed) k)). rewrite Q. apply Tl. }
        rewrite Hp, Hk in S. simpl in S. injection S as <-.
        apply (ACT _ _ [_]). right. exists (resv (sh c)). split; [apply Lo|]. split; [apply Te|]. split; [intros _; apply in_or_app; simpl; auto|].
        split; [congruence|]. intros b' n' Hin. apply in_app_iff in Hin. destruct Hin as [Hin|[Hin|[]]]; [now apply Na in Hin|].
        now injection Hin as <- <-.
      + assert (T2 : forall a p s' l y, shape (act_ok (touches (c_op x)) (makes (c_op x))) (fun _ => True) p -> loops b p ->
                 act_ok (touches (c_op x)) (makes (c_op x)) a -> exec E t a (sh c) = Done y s' l -> base (after t c x p s' l)).
        { intros a p s' l y Sp Lq Oa Ex. apply ACT. right. exists b. split; [exact Lq|]. split; [exact Sp|].
          split; [intros Gr; apply in_or_app; auto|]. split; [exact H2|]. intros b' n' Hin.
          apply in_app_iff in Hin. destruct Hin as [Hin|Hin]; [now apply H3|].
          destruct (exec_add _ _ _ _ _ _ _ _ Ex Hin) as (r & ->). destruct Oa. }
        unfold tail in Tl. destruct (c_prog x) as [r|m|a k|a ag k] eqn:Hp.
        * injection S as <-. apply K. discriminate.
        * injection S as <-. apply K. discriminate.
        * destruct (exec E t a (sh c)) eqn:Ex; [|discriminate]. injection S as <-. destruct Tl as [Ta Tk]. eapply T2; eauto; apply Lp.
        * destruct (exec E t a (sh c)) eqn:Ex; [|discriminate]. destruct (ag x0); injection S as <-; [assumption|].
          destruct Tl as [Ta Tk]. eapply T2; eauto; apply Lp.
    - destruct (run c) eqn:R; [|discriminate]. destruct (clear (sh c)); try discriminate; injection S as <-.
      + intros u z Hz. discriminate.
      + assumption.
    - destruct (run c) eqn:R; [|discriminate]. destruct (reserve_maximum_capacity E k (sh c)) as [[]| |]; try discriminate; injection S as <-.
      + intros u z Hz. discriminate.
      + assumption.
  Qed.
  Lemma execution_base c : execution c -> base c.
  Proof.
    intros (X1 & X2 & X3 & X4 & R). induction R as [|c l c' R IH C S]; [intros t x H; discriminate|].
    eapply step_base; eauto. repeat (split; [assumption|]). assumption.
  Qed.

  (** ** a step that changes nothing is a round of a busy-wait *)
  Lemma no_loop p : match p with Act a k => forall y, k y <> p | Spin a _ k => forall y, k y <> p | _ => True end.
  Proof.
    induction p as [r|m|a k IH|a ag k IH]; try exact Logic.I.
    - intros y Hy. specialize (IH y). rewrite Hy in IH. exact (IH y Hy).
    - intros y Hy. specialize (IH y). rewrite Hy in IH. exact (IH y Hy).
  Qed.

  Lemma stay_inv c t : step E c (LStep t) = Next c -> exists x a ag k y s' l,
    lookup t (run c) = Some x /\ c_prog x = Spin a ag k /\ exec E t a (sh c) = Done y s' l /\ ag y = true.
  Proof.
    simpl. unfold step_thread. destruct (lookup t (run c)) as [x|] eqn:Lk; [|discriminate]. intros S.
    assert (K : forall e : event V, hist c ++ [e] <> hist c).
    { intros e H. apply (f_equal (@length _)) in H. rewrite app_length in H. simpl in H. lia. }
    assert (A : forall p s l, after t c x p s l = c -> p = c_prog x).
    { intros p s l H. assert (Q : lookup t (run (after t c x p s l)) = lookup t (run c)) by now rewrite H.
      rewrite after_lookup in Q by assumption. rewrite Nat.eqb_refl, Lk in Q. now injection Q as <-. }
    pose proof (no_loop (c_prog x)) as NL.
    destruct (c_prog x) as [r|m|a k|a ag k] eqn:Hp.
    - injection S as S. apply (f_equal (@hist V)) in S. simpl in S. now apply K in S.
    - injection S as S. apply (f_equal (@hist V)) in S. simpl in S. now apply K in S.
    - destruct (exec E t a (sh c)) eqn:Ex; [|discriminate]. injection S as S. apply A in S. now apply NL in S.
    - destruct (exec E t a (sh c)) eqn:Ex; [|discriminate]. destruct (ag x0) eqn:Ag.
      + exists x, a, ag, k, x0, s, l. auto.
      + injection S as S. apply A in S. now apply NL in S.
  Qed.

  (** the reservation of a running call *)
  Lemma add_len c t x b n : execution c -> lookup t (run c) = Some x -> In (AcAdd b n) (accs (c_id x) (hist c)) ->
    b + n <= a_len (replay a0 (hist c)).
  Proof.
    intros X Lk Hin. destruct (execution_world _ _ _ _ _ _ c X) as (snap & g & W). pose proof (w_gi _ _ _ _ _ _ _ _ W) as G.
    pose proof (gi_expl _ _ _ _ _ _ _ _ G) as Ex. destruct (gi_run _ _ _ _ _ _ _ _ G t x Lk) as [O _].
    rewrite <- (firstn_all (hist c)) in Hin. apply accs_firstn in Hin. destruct Hin as (j & u & Hj & Ej).
    destruct (h_add _ _ _ _ _ _ _ Ex j _ _ _ _ Ej) as [_ H].
    destruct (h_acc _ _ _ _ _ _ _ Ex j _ _ _ Ej) as (o & I1 & I2 & I3 & _).
    rewrite <- (firstn_all (hist c)) in O. destruct (h_open _ _ _ _ _ _ _ Ex (length (hist c)) _ _ _ (le_n _) O) as (O1 & O2 & O3 & _).
    assert (Ep : epoch (hist c) (S j) = epoch (hist c) (length (hist c))).
    { rewrite (epoch_between (hist c) (c_id x) (S j) (length (hist c))); [assumption|assumption|lia]. }
    pose proof (h_len _ _ _ _ _ _ _ Ex (S j) (length (hist c)) Hj (le_n _) Ep) as HL.
    rewrite (before_all a0 (hist c) (length (hist c))) in HL by lia. lia.
  Qed.

  Lemma reserved_grows c i id : execution c -> a_pos (replay a0 (hist c)) i = Reserved id ->
    exists u z b, lookup u (run c) = Some z /\ c_id z = id /\ grows (c_op z) = true /\
      In (AcAdd b (request (c_op z))) (accs id (hist c)) /\ b <= i < b + request (c_op z).
  Proof.
    intros X Hr. destruct (execution_world _ _ _ _ _ _ c X) as (snap & g & W). pose proof (w_gi _ _ _ _ _ _ _ _ W) as G.
    pose proof (gi_pos _ _ _ _ _ _ _ _ G i) as P. unfold Sound.a0 in P. rewrite Hr in P. destruct P as (u & z & Lu & Hid & _).
    destruct (reserved_from a0 (hist c) i id) as (h1 & t & b & n & h2 & Hh & _ & Hb); [|exact Hr|].
    { intros j. simpl. destruct (nth_error l0 i); discriminate. }
    assert (Hin : In (AcAdd b n) (accs id (hist c))). { eapply accs_in. rewrite Hh. apply in_or_app. right. left. reflexivity. }
    exists u, z, b. split; [assumption|]. split; [assumption|].
    destruct (execution_base c X u z Lu) as [(_ & _ & Na)|(b' & _ & _ & _ & H2 & H3)]; rewrite Hid in *.
    - now apply Na in Hin.
    - destruct (H3 b n Hin) as [-> ->]. destruct (grows (c_op z)) eqn:Gr; [auto|]. specialize (H2 eq_refl).
      destruct (c_op z); simpl in *; try discriminate; lia.
  Qed.

  (** ** a call that waits for another one goes on waiting while the other one makes no step *)
  Lemma step_lookup c l c' u x : NoDup (map fst (run c)) -> step E c l = Next c' -> ~ actor u l ->
    lookup u (run c) = Some x -> lookup u (run c') = Some x.
  Proof.
    intros Nd S Na Lu. destruct l as [t o|t| |k]; simpl in S, Na.
    - destruct (lookup t (run c)) eqn:Lk; [discriminate|]. destruct (has_grant o (given c)); [|discriminate]. injection S as <-.
      simpl. destruct (Nat.eqb_spec u t) as [->|]; [congruence|assumption].
    - unfold step_thread in S. destruct (lookup t (run c)) as [y|] eqn:Lk; [|discriminate].
      assert (R : lookup u (remove t (run c)) = Some x) by (rewrite lookup_remove_other; congruence).
      assert (A : forall p s l, lookup u (run (after t c y p s l)) = Some x).
      { intros p s l. rewrite after_lookup by assumption. destruct (Nat.eqb_spec u t); [congruence|assumption]. }
      destruct (c_prog y) as [r|m'|a k|a ag k] eqn:Hp.
      + injection S as <-. exact R.
      + injection S as <-. exact R.
      + destruct (exec E t a (sh c)) eqn:Ex; [|discriminate]. injection S as <-. apply A.
      + destruct (exec E t a (sh c)) eqn:Ex; [|discriminate]. destruct (ag x0) eqn:Ag; injection S as <-; [assumption|apply A].
    - destruct (run c); [discriminate|discriminate].
    - destruct (run c); [discriminate|discriminate].
  Qed.

  (** Only the call that holds the position at the capacity changes the capacity. *)
  Lemma exec_cap t (a : act V) s y s' l : exec E t a s = Done y s' l -> cap s' = cap s \/ growing s = Some t.
  Proof.
    destruct a; simpl; unfold with_slot; intros H;
      repeat match goal with
             | H : context [if ?b then _ else _] |- _ => let Q := fresh "Q" in destruct b eqn:Q
             | H : context [match ?b with _ => _ end] |- _ => let Q := fresh "Q" in destruct b eqn:Q
             end; try discriminate; injection H as <- <- <-; simpl; auto.
    all: right; unfold is_tid in *; destruct (growing s) as [u|]; [|discriminate];
      match goal with H : (_ =? _) = true |- _ => apply Nat.eqb_eq in H; now subst u end.
  Qed.
  Lemma step_cap c snap g l c' : world E ro nl l0 m0 c snap g -> step E c l = Next c' ->
    cap (sh c') = cap (sh c) \/ exists t, l = LStep t /\ g (cap (sh c)) = GPend t.
  Proof.
    intros W S. destruct l as [t o|t| |k]; simpl in S.
    - destruct (lookup t (run c)) eqn:Lk; [discriminate|]. destruct (has_grant o (given c)); [|discriminate]. injection S as <-. auto.
    - pose proof (i_grow _ _ _ _ (gi_inv _ _ _ _ _ _ _ _ (w_gi _ _ _ _ _ _ _ _ W)) t) as Gr.
      unfold step_thread in S. destruct (lookup t (run c)) as [y|] eqn:Lk; [|discriminate].
      destruct (c_prog y) as [r|m'|a k|a ag k] eqn:Hp.
      + injection S as <-. auto.
      + injection S as <-. auto.
      + destruct (exec E t a (sh c)) eqn:Ex; [|discriminate]. injection S as <-. simpl.
        destruct (exec_cap _ _ _ _ _ _ Ex) as [?|Hg]; [auto|right; eauto].
      + destruct (exec E t a (sh c)) eqn:Ex; [|discriminate]. destruct (ag x) eqn:Ag; injection S as <-; [auto|]. simpl.
        destruct (exec_cap _ _ _ _ _ _ Ex) as [?|Hg]; [auto|right; eauto].
    - destruct (run c); [|discriminate]. unfold clear in S. destruct (resv (sh c) <=? cap (sh c)); [|discriminate]. injection S as <-. auto.
    - destruct (run c); [|discriminate]. unfold reserve_maximum_capacity in S.
      destruct (reserve E (cap (sh c)) (maxc (sh c)) k); injection S as <-; auto.
  Qed.

  Definition waits_cap n p : Prop := exists ag k, p = Spin LoadCap ag k /\ ag n = true.
  Definition held_up c (g : nat -> gst V) u p : Prop :=
    (exists i m, waits_for i p /\ g i = GLock u m) \/ (waits_cap (cap (sh c)) p /\ g (cap (sh c)) = GPend u).

  Lemma held_up_stay c snap g u t x : world E ro nl l0 m0 c snap g -> lookup t (run c) = Some x -> held_up c g u (c_prog x) ->
    step E c (LStep t) = Next c.
  Proof.
    intros W Lt H. simpl. unfold step_thread. rewrite Lt. destruct H as [(i & m & (ag & k & Hp & Ag) & Hg)|[(ag & k & Hp & Ag) _]]; rewrite Hp.
    - pose proof (i_slot _ _ _ _ (gi_inv _ _ _ _ _ _ _ _ (w_gi _ _ _ _ _ _ _ _ W)) i) as Sl. rewrite Hg in Sl.
      assert (R : i < cap (sh c) /\ sst (slots (sh c) i) = RESERVED) by (destruct m; split; apply Sl).
      destruct R as [R1 R2]. simpl. unfold with_slot. apply Nat.ltb_lt in R1. rewrite R1, R2. simpl. now rewrite Ag.
    - simpl. now rewrite Ag.
  Qed.

  Lemma held_up_step (EOK : env_ok E) c snap g l c' t x u z : world E ro nl l0 m0 c snap g -> t <> u ->
    lookup t (run c) = Some x -> lookup u (run c) = Some z -> held_up c g u (c_prog x) ->
    client E ro nl (length l0) c l -> step E c l = Next c' -> l <> LStep u ->
    exists snap' g', world E ro nl l0 m0 c' snap' g' /\ lookup t (run c') = Some x /\ lookup u (run c') = Some z /\ held_up c' g' u (c_prog x).
  Proof.
    intros W N Lt Lu H C S Nl.
    assert (Au : ~ actor u l).
    { intros A. destruct l; simpl in A; try contradiction; subst; [|congruence]. simpl in S. rewrite Lu in S. discriminate. }
    pose proof (gi_nodup _ _ _ _ _ _ _ _ (w_gi _ _ _ _ _ _ _ _ W)) as Nd.
    assert (D : l = LStep t \/ ~ actor t l).
    { destruct l as [w o|w| |]; simpl; auto.
      - right. intros ->. simpl in S. rewrite Lt in S. discriminate.
      - destruct (Nat.eq_dec w t) as [->|]; auto. }
    destruct D as [->|At].
    - rewrite (held_up_stay c snap g u t x W Lt H) in S. injection S as <-. exists snap, g. auto.
    - destruct (step_world E ro nl l0 c0 m0 EOK c snap g l c' W C S) as (snap' & g' & W' & O).
      exists snap', g'. split; [assumption|]. split; [eapply step_lookup; eauto|]. split; [eapply step_lookup; eauto|].
      destruct H as [(i & m & Hw & Hg)|[Hw Hg]].
      + left. exists i, m. split; [assumption|]. apply (own_lock u (g i) (g' i) m); [symmetry; now apply O|assumption].
      + right. assert (Hc : cap (sh c') = cap (sh c)).
        { destruct (step_cap c snap g l c' W S) as [?|(w & -> & Hw2)]; [assumption|]. rewrite Hg in Hw2. injection Hw2 as ->. destruct (Nl eq_refl). }
        rewrite Hc. split; [assumption|]. specialize (O u (cap (sh c)) Au). rewrite Hg in O. unfold own at 2 in O. simpl in O.
        rewrite Nat.eqb_refl in O. apply own_some in O. now destruct O.
  Qed.

  (** the continuations in which thread [u] makes no step *)
  Definition without u c (l : label V) : Prop := client E ro nl (length l0) c l /\ l <> LStep u.

  Lemma held_up_forever c snap g c' t x u z : execution c -> world E ro nl l0 m0 c snap g -> t <> u ->
    lookup t (run c) = Some x -> lookup u (run c) = Some z -> held_up c g u (c_prog x) ->
    reach E (without u) c c' -> execution c' /\ lookup t (run c') = Some x /\ lookup u (run c') = Some z.
  Proof.
    intros X W N Lt Lu H R.
    assert (K : exists snap' g', execution c' /\ world E ro nl l0 m0 c' snap' g' /\ lookup t (run c') = Some x /\ lookup u (run c') = Some z /\ held_up c' g' u (c_prog x)).
    { induction R as [|c1 l c2 R IH [C Nl] S]; [exists snap, g; auto|]. destruct IH as (s1 & g1 & X1 & W1 & L1 & M1 & H1).
      destruct (held_up_step (proj1 X) c1 s1 g1 l c2 t x u z W1 N L1 M1 H1 C S Nl) as (s2 & g2 & W2 & L2 & M2 & H2).
      exists s2, g2. split; [|auto]. eapply (execution_step E ro nl l0 c0 m0 c1 l); eauto. }
    destruct K as (s1 & g1 & X1 & _ & L1 & M1 & _). auto.
  Qed.

  Local Lemma and_assoc_l (A B C : Prop) : A /\ B /\ C <-> (A /\ B) /\ C.
  Proof. tauto. Qed.

  (** ** who a waiting call waits for *)
  Lemma waiting_on c t : execution c -> step E c (LStep t) = Next c -> exists x snap g f,
    world E ro nl l0 m0 c snap g /\ holds E c f /\ lookup t (run c) = Some x /\
    ((exists u z, u <> t /\ lookup u (run c) = Some z /\ held_up c g u (c_prog x) /\
        (step E c (LStep u) = Next c -> waits_holding E (c_op z) = true) /\
        ((exists i, i < cap (sh c) /\ sst (slots (sh c) i) = RESERVED /\ touches (c_op x) i /\ touches (c_op z) i /\ In i (fst (f u))) \/
         (grows (c_op x) = true /\ exists b, In (AcAdd b (request (c_op x))) (accs (c_id x) (hist c)) /\ cap (sh c) < b /\
            grows (c_op z) = true /\ a_pos (replay a0 (hist c)) (cap (sh c)) = Reserved (c_id z)))) \/
     (self_swap (c_op x) = true /\ waits_holding E (c_op x) = true /\ exists i, i < cap (sh c) /\ sst (slots (sh c) i) = RESERVED /\ touches (c_op x) i) \/
     (grows (c_op x) = true /\ exists b, In (AcAdd b (request (c_op x))) (accs (c_id x) (hist c)) /\ cap (sh c) < b /\
        a_pos (replay a0 (hist c)) (cap (sh c)) = Abandoned)).
  Proof.
    intros X S. destruct (stay_inv c t S) as (x & a & ag & k & y & s' & l & Lk & Hp & Ex & Ag).
    destruct (execution_base c X t x Lk) as [(Gr & Hx & _)|(b & Lp & Tl & H1 & H2 & H3)].
    { destruct (grow_loops E (c_op x) Gr) as (k' & Hk & _). congruence. }
    rewrite Hp in Lp. destruct Lp as [La _]. unfold tail in Tl. rewrite Hp in Tl. destruct Tl as [Ta _].
    destruct (execution_owned _ _ _ _ _ _ c X) as (snap & g & f & W & K & _ & Ow). exists x, snap, g, f. split; [assumption|]. split; [assumption|]. split; [assumption|].
    unfold loop_ok in La. destruct a as [| | | | | | |i e n| | | | | | | | | | |]; try contradiction.
    - (* the capacity *)
      simpl in Ex. injection Ex as Ey _ _. rewrite <- Ey in Ag. specialize (La _ Ag).
      destruct (grows (c_op x)) eqn:Gr; [|specialize (H2 eq_refl); lia]. specialize (H1 eq_refl).
      pose proof (add_len c t x b _ X Lk H1) as HL.
      pose proof (w_gi _ _ _ _ _ _ _ _ W) as G. pose proof (gi_inv _ _ _ _ _ _ _ _ G) as Iv.
      pose proof (pos_cases E ro nl l0 c0 m0 c (cap (sh c)) X) as P. pose proof (gi_pos _ _ _ _ _ _ _ _ G (cap (sh c))) as Q. unfold Sound.a0 in Q.
      destruct (a_pos (replay a0 (hist c)) (cap (sh c))) as [|id| |v] eqn:Hc; [lia| | |].
      + left. destruct (reserved_grows c _ _ X Hc) as (u & z & b' & Lu & Hid & Gz & Hin & Hb). exists u, z.
        assert (N : u <> t).
        { intros ->. rewrite Lk in Lu. injection Lu as <-. rewrite <- Hid in Hin. apply H3 in Hin. lia. }
        split; [assumption|]. split; [assumption|]. rewrite and_assoc_l. split; [|right; split; [reflexivity|]; exists b; rewrite Hid; auto].
        split.
        2:{ intros Su. exfalso. destruct (stay_inv c u Su) as (z2 & a2 & ag2 & k2 & y2 & s2 & l2 & Lk2 & Hp2 & Ex2 & Ag2).
            rewrite Lu in Lk2. injection Lk2 as <-. destruct (execution_base c X u z Lu) as [(Gr2 & Hx2 & _)|(b2 & Lp2 & Tl2 & _ & _ & H32)].
            { destruct (grow_loops E (c_op z) Gr2) as (k' & Hk & _). congruence. }
            rewrite Hp2 in Lp2. destruct Lp2 as [La2 _]. unfold tail in Tl2. rewrite Hp2 in Tl2. destruct Tl2 as [Ta2 _].
            rewrite <- Hid in Hin. destruct (H32 _ _ Hin) as [Hb2 _].
            unfold loop_ok in La2. destruct a2 as [| | | | | | |i2 e2 n2| | | | | | | | | | |]; try contradiction.
            - simpl in Ex2. injection Ex2 as Ey2 _ _. rewrite <- Ey2 in Ag2. specialize (La2 _ Ag2). lia.
            - simpl in Ta2. destruct (c_op z); try discriminate; contradiction. }
        right. split; [exists ag, k; auto|]. destruct Q as (u' & z' & Lu' & Hid' & Rb).
        assert (u' = u). { destruct (same_call _ _ _ _ _ _ _ _ u z u' z' G Lu Lu') as [? _]; congruence. }
        subst u'. pose proof (i_slot _ _ _ _ Iv (cap (sh c))) as Sl.
        destruct Rb as [?|[Rb|(v & Rb)]]; [assumption| |]; rewrite Rb in Sl; destruct Sl as [Sl _]; lia.
      + right. right. split; [reflexivity|]. eauto.
      + exfalso. pose proof (i_slot _ _ _ _ Iv (cap (sh c))) as Sl. simpl in Q.
        destruct (g (cap (sh c))) as [| | | | | |u [| |]]; try contradiction; destruct Sl as [Sl _]; lia.
    - (* an element *)
      destruct e; try contradiction. destruct n; try contradiction.
      destruct (La _ Ag) as [F1 F2]. simpl in Ex. unfold with_slot in Ex.
      destruct (i <? cap (sh c)) eqn:Hi; [|discriminate]. apply Nat.ltb_lt in Hi.
      assert (R : sst (slots (sh c) i) = RESERVED).
      { destruct (sst (slots (sh c) i)) eqn:Hs; simpl in Ex; injection Ex as <- _ _; simpl in *; try discriminate; reflexivity. }
      destruct (locked_by E ro nl l0 m0 c snap g i (w_gi _ _ _ _ _ _ _ _ W) Hi R) as (u & m & z & Hg & Lu).
      pose proof (Ow i u m Hg) as Hin.
      destruct (Nat.eq_dec u t) as [->|Nu].
      + right. left. pose proof (k_calm _ _ _ K t x Lk) as C. rewrite Hp in C.
        destruct C as (C0 & [C|C] & _); [|contradiction]. split; [assumption|]. split; [|exists i; auto].
        destruct C0 as [C0|C0]; [assumption|]. rewrite C0 in Hin. destruct Hin.
      + left. exists u, z. split; [assumption|]. split; [assumption|]. split.
        * left. exists i, m. split; [|assumption]. exists ag, k. split; [assumption|].
          destruct y as [y1 y2]. simpl in F1, F2. now subst y1 y2.
        * split.
          { intros Su. destruct (stay_inv c u Su) as (z2 & a2 & ag2 & k2 & y2 & s2 & l2 & Lk2 & Hp2 & _).
            rewrite Lu in Lk2. injection Lk2 as <-. pose proof (k_calm _ _ _ K u z Lu) as C. rewrite Hp2 in C.
            destruct C as ([C|C] & _); [assumption|]. rewrite C in Hin. destruct Hin. }
          left. exists i. repeat (split; [assumption|]). split; [|exact Hin]. eapply (k_touch _ _ _ K); eauto.
  Qed.
  Lemma waiting_for c t : execution c -> step E c (LStep t) = Next c -> exists x snap g,
    world E ro nl l0 m0 c snap g /\ lookup t (run c) = Some x /\
    ((exists u z, u <> t /\ lookup u (run c) = Some z /\ held_up c g u (c_prog x) /\
        (step E c (LStep u) = Next c -> waits_holding E (c_op z) = true) /\
        ((exists i, i < cap (sh c) /\ sst (slots (sh c) i) = RESERVED /\ touches (c_op x) i /\ touches (c_op z) i) \/
         (grows (c_op x) = true /\ exists b, In (AcAdd b (request (c_op x))) (accs (c_id x) (hist c)) /\ cap (sh c) < b /\
            grows (c_op z) = true /\ a_pos (replay a0 (hist c)) (cap (sh c)) = Reserved (c_id z)))) \/
     (self_swap (c_op x) = true /\ waits_holding E (c_op x) = true /\ exists i, i < cap (sh c) /\ sst (slots (sh c) i) = RESERVED /\ touches (c_op x) i) \/
     (grows (c_op x) = true /\ exists b, In (AcAdd b (request (c_op x))) (accs (c_id x) (hist c)) /\ cap (sh c) < b /\
        a_pos (replay a0 (hist c)) (cap (sh c)) = Abandoned)).
  Proof.
    intros X S. destruct (waiting_on c t X S) as (x & snap & g & f & W & _ & Lk & Q). exists x, snap, g. split; [assumption|]. split; [assumption|].
    destruct Q as [(u & z & N & Lu & H & Sw & [(i & A & B & C & D & _)|Q])|Q]; [|left; exists u, z; repeat (split; [assumption|]); right; exact Q|right; exact Q].
    left. exists u, z. repeat (split; [assumption|]). left. exists i. repeat (split; [assumption|]). assumption.
  Qed.

  (** ** going on *)
  Definition can_move c t : Prop := exists c', step E c (LStep t) = Next c' /\ c' <> c.

  Lemma move_or_wait c t x : execution c -> lookup t (run c) = Some x -> step E c (LStep t) = Next c \/ can_move c t.
  Proof.
    intros X Lk. destruct (step E c (LStep t)) as [c'|f|] eqn:S.
    - destruct (c_prog x) as [r|m|a k|a ag k] eqn:Hp.
      1-3: right; exists c'; split; [assumption|]; intros ->; destruct (stay_inv c t S) as (x' & a' & ag' & k' & _ & _ & _ & Lk' & Hp' & _); congruence.
      simpl in S. unfold step_thread in S. rewrite Lk, Hp in S. destruct (exec E t a (sh c)) eqn:Ex; [|discriminate].
      destruct (ag x0) eqn:Ag; [left; congruence|]. right. exists c'.
      assert (S' : step E c (LStep t) = Next c') by (simpl; unfold step_thread; now rewrite Lk, Hp, Ex, Ag). split; [assumption|].
      injection S as S. intros Q. rewrite Q in S. assert (R : lookup t (run c) = Some (Call (c_id x) (c_op x) (k x0))).
      { rewrite <- S at 1. now rewrite after_lookup, Nat.eqb_refl by assumption. }
      pose proof (no_loop (c_prog x)) as NL. rewrite Hp in NL. rewrite Lk in R. injection R as R. apply (NL x0). rewrite <- Hp, R. reflexivity.
    - exfalso. now apply (execution_no_fault E ro nl l0 c0 m0 c (LStep t) f X Logic.I).
    - exfalso. simpl in S. unfold step_thread in S. rewrite Lk in S.
      destruct (c_prog x); try discriminate; destruct (exec E t a (sh c)); try discriminate. destruct (again x0); discriminate.
  Qed.

  (** programs get shorter *)
  Definition child (q p : prog V (ret V)) : Prop :=
    match p with Act a k => exists y, q = k y | Spin a _ k => exists y, q = k y | _ => False end.
  Lemma child_wf p : Acc child p.
  Proof. induction p as [r|m|a k IH|a ag k IH]; constructor; intros q C; simpl in C; try contradiction; destruct C as (y & ->); apply IH. Qed.
  Definition less (q o : option (prog V (ret V))) : Prop :=
    match o with None => False | Some p => q = None \/ exists q', q = Some q' /\ child q' p end.
  Lemma less_wf o : Acc less o.
  Proof.
    assert (N : Acc less None) by (constructor; intros q []).
    destruct o as [p|]; [|exact N].
    induction p as [r|m|a k IH|a ag k IH]; constructor; intros q [->|(q' & -> & C)]; try exact N; simpl in C; try contradiction;
      destruct C as (y & ->); apply IH.
  Qed.
  Inductive one_less {A} (R : A -> A -> Prop) : list A -> list A -> Prop :=
  | one_less_intro l1 a b l2 : R a b -> one_less R (l1 ++ a :: l2) (l1 ++ b :: l2).
  Lemma one_less_wf {A} (R : A -> A -> Prop) : (forall a, Acc R a) -> forall l, Acc (one_less R) l.
  Proof.
    intros WF. induction l as [|a l IH].
    - constructor. intros l' H. inversion H as [l1 q p l2 Hq H1 H2]. destruct l1; discriminate.
    - revert l IH. induction (WF a) as [a _ IHa]. intros l Hl. induction Hl as [l Hl IHl].
      constructor. intros l' H. inversion H as [l1 q p l2 Hq H1 H2]; subst. destruct l1 as [|b l1]; simpl in *.
      + injection H2 as -> ->. apply IHa; [assumption|]. constructor. exact Hl.
      + injection H2 as -> <-. apply IHl. now constructor.
  Qed.

  Definition progs (ts : list nat) c : list (option (prog V (ret V))) := map (fun t => match lookup t (run c) with Some x => Some (c_prog x) | None => None end) ts.

  Lemma move_inv c t x c' : NoDup (map fst (run c)) -> lookup t (run c) = Some x -> step E c (LStep t) = Next c' -> c' <> c ->
    (forall u, u <> t -> lookup u (run c') = lookup u (run c)) /\
    ((exists q l, lookup t (run c') = Some (Call (c_id x) (c_op x) q) /\ child q (c_prog x) /\ hist c' = hist c ++ map (EAcc (c_id x) t) l) \/
     (lookup t (run c') = None /\ ((exists r, hist c' = hist c ++ [ERet (c_id x) t r]) \/ exists m, hist c' = hist c ++ [EPan (c_id x) t m]))).
  Proof.
    intros Nd Lk S Ne. simpl in S. unfold step_thread in S. rewrite Lk in S.
    assert (A : forall q s l, child q (c_prog x) -> (forall u, u <> t -> lookup u (run (after t c x q s l)) = lookup u (run c)) /\
      ((exists q' l', lookup t (run (after t c x q s l)) = Some (Call (c_id x) (c_op x) q') /\ child q' (c_prog x) /\
          hist (after t c x q s l) = hist c ++ map (EAcc (c_id x) t) l') \/
       (lookup t (run (after t c x q s l)) = None /\ ((exists r, hist (after t c x q s l) = hist c ++ [ERet (c_id x) t r]) \/
          exists m, hist (after t c x q s l) = hist c ++ [EPan (c_id x) t m])))).
    { intros q s l C. split.
      - intros u N. rewrite after_lookup by assumption. destruct (Nat.eqb_spec u t); [contradiction|reflexivity].
      - left. exists q, l. rewrite after_lookup, Nat.eqb_refl by assumption. auto. }
    destruct (c_prog x) as [r|m'|a k|a ag k] eqn:Hp.
    - injection S as <-. simpl. split; [intros u N; now apply lookup_remove_other|right]. split; [now apply lookup_remove_same|eauto].
    - injection S as <-. simpl. split; [intros u N; now apply lookup_remove_other|right]. split; [now apply lookup_remove_same|eauto].
    - destruct (exec E t a (sh c)) eqn:Ex; [|discriminate]. injection S as <-. apply A. exists x0. reflexivity.
    - destruct (exec E t a (sh c)) eqn:Ex; [|discriminate]. destruct (ag x0) eqn:Ag; injection S as <-; [contradiction|]. apply A. exists x0. reflexivity.
  Qed.

  Lemma move_less ts c t c' : NoDup ts -> NoDup (map fst (run c)) -> (forall u x, lookup u (run c) = Some x -> In u ts) ->
    step E c (LStep t) = Next c' -> c' <> c ->
    one_less less (progs ts c') (progs ts c) /\ (forall u x, lookup u (run c') = Some x -> In u ts).
  Proof.
    intros Nt Nd Hts S Ne. assert (Lk : exists x, lookup t (run c) = Some x).
    { simpl in S. unfold step_thread in S. destruct (lookup t (run c)); [eauto|discriminate]. }
    destruct Lk as (x & Lk). destruct (move_inv c t x c' Nd Lk S Ne) as [K1 K2]. split.
    - destruct (in_split t ts (Hts t x Lk)) as (t1 & t2 & ->). unfold progs. rewrite !map_app. simpl. rewrite Lk.
      apply NoDup_remove_2 in Nt.
      rewrite (map_ext_in _ (fun t => match lookup t (run c) with Some x => Some (c_prog x) | None => None end) t1).
      rewrite (map_ext_in _ (fun t => match lookup t (run c) with Some x => Some (c_prog x) | None => None end) t2).
      + constructor. destruct K2 as [(q & l & -> & C & _)|[-> _]]; simpl; eauto.
      + intros u Hu. rewrite K1; [reflexivity|]. intros ->. apply Nt, in_or_app. auto.
      + intros u Hu. rewrite K1; [reflexivity|]. intros ->. apply Nt, in_or_app. auto.
    - intros u y. destruct (Nat.eq_dec u t) as [->|N]; [intros _; eapply Hts; eauto|]. rewrite K1 by assumption. apply Hts.
  Qed.

  (** A step that is not a round of a busy-wait, from a configuration without an overrun. *)
  Lemma move_on c t x c' : execution c -> lookup t (run c) = Some x -> step E c (LStep t) = Next c' -> c' <> c ->
    execution c' /\ grown E ro nl l0 c c' /\
    (~ overrun (hist c) -> ~ overrun (hist c') \/ (lookup t (run c') = None /\ overrun (hist c'))).
  Proof.
    intros X Lk S Ne. assert (X' : execution c') by (eapply (execution_step E ro nl l0 c0 m0 c (LStep t)); eauto; exact Logic.I).
    destruct (execution_world _ _ _ _ _ _ c X) as (snap & g & W). pose proof (w_gi _ _ _ _ _ _ _ _ W) as G.
    destruct (gi_run _ _ _ _ _ _ _ _ G t x Lk) as [O _].
    destruct (move_inv c t x c' (gi_nodup _ _ _ _ _ _ _ _ G) Lk S Ne) as [K1 K2].
    split; [assumption|]. split.
    - split; [eapply (reach_step E _ c c (LStep t)); [constructor|exact Logic.I|assumption]|].
      destruct K2 as [(q & l & _ & _ & ->)|[_ [(r & ->)|(m & ->)]]]; eexists; (split; [reflexivity|]).
      + intros e He. apply in_map_iff in He. now destruct He as (y & <- & _).
      + intros e [<-|[]]. exact Logic.I.
      + intros e [<-|[]]. exact Logic.I.
    - intros N. destruct K2 as [(q & l & _ & _ & Hh)|[L [(r & Hh)|(m & Hh)]]]; rewrite Hh.
      + left. intros Q. apply N. revert Q. apply over_app. intros e He. apply in_map_iff in He. now destruct He as (y & <- & _).
      + left. intros Q. apply N. revert Q. apply over_app. intros e [<-|[]]. exact Logic.I.
      + destruct O as [O _]. destruct (too_far_dec (c_op x) m) as [T|T]; [right; split; [assumption|eapply over_end; eauto]|].
        left. intros Q. apply over_snoc in Q as [Q|(id & u & m' & o & He & Ho & T')]; [contradiction| |discriminate].
        injection He as <- <- <-. rewrite O in Ho. injection Ho as <-. contradiction.
  Qed.

  (** A call that is alone in the vector ends. *)
  Lemma alone_ends c t x : execution c -> lookup t (run c) = Some x -> (forall u z, lookup u (run c) = Some z -> u = t) ->
    self_swap (c_op x) && hspin E = false -> grows (c_op x) = false \/ ~ overrun (hist c) ->
    exists n c', runs E c (repeat (LStep t) n) = Next c' /\ execution c' /\ lookup t (run c') = None.
  Proof.
    intros X Lk On Ns Gp. remember (c_prog x) as p eqn:Hp. revert c x X Lk On Ns Gp Hp.
    induction (child_wf p) as [p _ IH]. intros c x X Lk On Ns Gp Hp.
    destruct (move_or_wait c t x X Lk) as [S|(c' & S & Ne)].
    - exfalso. destruct (waiting_for c t X S) as (x' & snap & g & W & Lk' & Q). rewrite Lk in Lk'. injection Lk' as <-.
      destruct Q as [(u & z & N & Lu & _)|[(Ss & Wh & _)|(Gr & b & _ & _ & Ab)]].
      + apply N. eapply On; eauto.
      + unfold waits_holding in Wh. apply andb_true_iff in Wh. destruct Wh as [_ Wh]. rewrite Ss, Wh in Ns. discriminate.
      + destruct Gp as [Gp|Gp]; [congruence|]. exact (Gp (beyond_over E ro nl l0 c0 m0 c _ X Ab (le_n _))).
    - destruct (execution_world _ _ _ _ _ _ c X) as (snap & g & W). pose proof (gi_nodup _ _ _ _ _ _ _ _ (w_gi _ _ _ _ _ _ _ _ W)) as Nd.
      destruct (move_on c t x c' X Lk S Ne) as (X' & _ & Np). destruct (move_inv c t x c' Nd Lk S Ne) as [K1 [(q & l & Lq & C & Hh)|[L _]]].
      + destruct (IH q) with (c := c') (x := Call (c_id x) (c_op x) q) as (n & c2 & R & X2 & L2).
        * rewrite Hp. exact C.
        * assumption.
        * assumption.
        * intros u z. destruct (Nat.eq_dec u t) as [->|N]; [reflexivity|]. rewrite K1 by assumption. apply On.
        * exact Ns.
        * destruct Gp as [Gp|Gp]; [left; exact Gp|]. destruct (Np Gp) as [Q|(Q & _)]; [right; exact Q|congruence].
        * reflexivity.
        * exists (Datatypes.S n), c2. split; [|auto]. cbn [repeat runs]. rewrite S. exact R.
      + exists 1, c'. split; [|auto]. cbn [repeat runs]. now rewrite S.
  Qed.

  (** If no call waits for an element while it holds another one, some call can go on. *)
  Lemma someone_moves c t x : execution c -> nl = true -> lookup t (run c) = Some x -> ~ overrun (hist c) ->
    exists u z, lookup u (run c) = Some z /\ can_move c u.
  Proof.
    intros X Hnl Lk N. destruct (move_or_wait c t x X Lk) as [S|M]; [|eauto].
    assert (Nw : forall u z, lookup u (run c) = Some z -> waits_holding E (c_op z) = false).
    { intros u z Lu. destruct (execution_world _ _ _ _ _ _ c X) as (snap & g & W).
      pose proof (w_gi _ _ _ _ _ _ _ _ W) as G. destruct (gi_run _ _ _ _ _ _ _ _ G u z Lu) as [[O _] _].
      destruct (h_ev _ _ _ _ _ _ _ (gi_expl _ _ _ _ _ _ _ _ G) _ _ O) as (_ & _ & _ & Al).
      destruct Al as (_ & _ & _ & Al). unfold waits_holding. destruct (swaps (c_op z)); [|reflexivity]. now apply Al. }
    destruct (waiting_for c t X S) as (x' & snap & g & W & Lk' & Q). rewrite Lk in Lk'. injection Lk' as <-.
    destruct Q as [(u & z & Nu & Lu & _ & Hu & _)|[(_ & Wh & _)|(Gr & b & _ & _ & Ab)]].
    - destruct (move_or_wait c u z X Lu) as [Su|M]; [|eauto]. specialize (Hu Su). rewrite (Nw u z Lu) in Hu. discriminate.
    - rewrite (Nw t x Lk) in Wh. discriminate.
    - destruct (N (beyond_over E ro nl l0 c0 m0 c _ X Ab (le_n _))).
  Qed.

  Lemma all_end c : execution c -> nl = true -> ~ overrun (hist c) ->
    exists c', execution c' /\ grown E ro nl l0 c c' /\ (run c' = [] \/ overrun (hist c')).
  Proof.
    intros X Hnl N. set (ts := map fst (run c)).
    assert (Nt : NoDup ts). { destruct (execution_world _ _ _ _ _ _ c X) as (snap & g & W). apply (gi_nodup _ _ _ _ _ _ _ _ (w_gi _ _ _ _ _ _ _ _ W)). }
    assert (Hts : forall u x, lookup u (run c) = Some x -> In u ts).
    { intros u x Lu. apply (lookup_in u (run c) x) in Lu. apply in_map_iff. exists (u, x). auto. }
    remember (progs ts c) as l eqn:Hl. clearbody ts. revert c X N Hts Hl.
    induction (one_less_wf less less_wf l) as [l _ IH]. intros c X N Hts Hl.
    destruct (run c) as [|[t x] r] eqn:R.
    - exists c. split; [assumption|]. split; [apply grown_refl|auto].
    - assert (Lk : lookup t (run c) = Some x) by (rewrite R; simpl; now rewrite Nat.eqb_refl).
      destruct (someone_moves c t x X Hnl Lk N) as (u & z & Lu & c' & S & Ne).
      destruct (execution_world _ _ _ _ _ _ c X) as (snap & g & W). pose proof (gi_nodup _ _ _ _ _ _ _ _ (w_gi _ _ _ _ _ _ _ _ W)) as Nd.
      destruct (move_on c u z c' X Lu S Ne) as (X' & G' & Np). destruct (Np N) as [N'|(_ & Ov)].
      + rewrite <- R in Hts. destruct (move_less ts c u c' Nt Nd Hts S Ne) as [D Hts'].
        destruct (IH (progs ts c')) with (c := c') as (c2 & X2 & G2 & Q); [now rewrite Hl|assumption|assumption|assumption|reflexivity|].
        exists c2. split; [assumption|]. split; [eapply grown_trans; eauto|assumption].
      + exists c'. auto.
  Qed.
End Exec.
