(** * Closures that call back: how calls nest, and what the closures have. *)

From Coq Require Import List Arith Bool Lia.
From Verif.Model Require Import Prog Mem Deps State Elem Vec Excl Machine Reentrant.
From Verif Require Import Client Spec Fair Nested.
From Verif.Logic Require Import Inv WP Post Specs Ops Sound Shape Clients Hist Facts Borrows Reentry.
Import ListNotations.
Local Open Scope prog_scope.

(** ** Where closures run *)
Section Closures.
  Context {V : Type} (E : env V).

  (** The next access of [p] ends a reference to the value of element [i]. *)
  Definition refers {R} (i : nat) (p : rprog V R) : Prop :=
    match p with RAct (RdEnd j) _ | RAct (WrEnd j _) _ => j = i | _ => False end.
  Definition after_read (a : act V) (n : nat) : nat := match a with RdEnd _ => S n | _ => n end.
  (** [f n]: the element lent to a closure that runs after [n] values were read *)
  Fixpoint clo {R} (f : nat -> option nat) (Q : R -> nat -> Prop) (n : nat) (p : rprog V R) : Prop :=
    match p with
    | RRet r => Q r n
    | RPan _ => True
    | RAct a k | RSpin a _ k => forall x, clo f Q (after_read a n) (k x)
    | RClo k => (forall i, f n = Some i -> forall a, refers i (k a)) /\ forall a, clo f Q n (k a)
    end.
  Lemma clo_bind {A B} f (Q : A -> nat -> Prop) (Q' : B -> nat -> Prop) (p : rprog V A) (k : A -> rprog V B) : forall n,
    clo f Q n p -> (forall x n, Q x n -> clo f Q' n (k x)) -> clo f Q' n (rbind p k).
  Proof.
    induction p as [r|m|a c IH|a g c IH|c IH]; intros n H F; simpl in *; auto. destruct H as [H1 H2]. split; auto.
    intros i Hi a. specialize (H1 i Hi a). destruct (c a) as [| |a' c'| |]; simpl in *; try contradiction. destruct a'; assumption.
  Qed.
  Lemma clo_mono {A} f (Q Q' : A -> nat -> Prop) (p : rprog V A) : (forall x n, Q x n -> Q' x n) -> forall n, clo f Q n p -> clo f Q' n p.
  Proof. intros H. induction p; simpl; auto. intros n [H1 H2]. auto. Qed.
  Lemma clo_none {R} (p : rprog V R) : forall n, clo (fun _ => None) (fun _ _ => True) n p.
  Proof. induction p; intros n; simpl; auto. split; [discriminate|auto]. Qed.

  (** Programs that read no values. *)
  Fixpoint noread {R} (Q : R -> Prop) (p : prog V R) : Prop :=
    match p with
    | Ret r => Q r
    | Pan _ => True
    | Act a k | Spin a _ k => after_read a 0 = 0 /\ forall x, noread Q (k x)
    end.
  Lemma noread_clo {R} f (Q : R -> Prop) (p : prog V R) : noread Q p -> forall n, clo f (fun r m => Q r /\ m = n) n (lift p).
  Proof.
    induction p as [r|m|a k IH|a g k IH]; simpl; intros H n; auto; destruct H as [H1 H2]; intros x; specialize (IH x (H2 x) n);
      destruct a; simpl in *; auto; discriminate.
  Qed.
  Lemma noread_bind {A B} (Q : A -> Prop) (Q' : B -> Prop) (p : prog V A) (k : A -> prog V B) :
    noread Q p -> (forall x, Q x -> noread Q' (k x)) -> noread Q' (bind p k).
  Proof. induction p as [r|m|a c IH|a g c IH]; simpl; intros H F; auto; destruct H as [H1 H2]; split; auto. Qed.
  Definition Any {A} (_ : A) : Prop := True.

  Lemma noread_count k : forall i, noread Any (count_pushed (V := V) i k).
  Proof.
    induction k as [|k IH]; intros i; simpl; [exact I|]. split; [reflexivity|]. intros x. destruct (st_eqb x SOME); simpl; [|exact I].
    apply (noread_bind Any); [apply IH|]. intros; exact I.
  Qed.
  Lemma noread_len : noread Any (vec_len (V := V)).
  Proof.
    unfold vec_len. do 3 (split; [reflexivity|]; intros ?). cbv zeta. split; [reflexivity|]. intros ?. cbn [bind].
    apply (noread_bind Any); [apply noread_count|]. intros ? _. split; [reflexivity|]. intros; exact I.
  Qed.
  Lemma noread_range a b : noread (fun l => exists n, l = seq a n) (core_iter_over_range (V := V) a b).
  Proof. split; [reflexivity|]. intros ?. simpl. eauto. Qed.
  Lemma noread_iter : noread (fun l => exists n, l = seq 0 n) (vec_iter (V := V)).
  Proof. apply (noread_bind Any); [apply noread_len|]. intros n _. apply noread_range. Qed.
  Lemma noread_slice_iter x : noread (fun l => exists n, l = seq (sl_a x) n) (slice_iter (V := V) x).
  Proof. apply noread_range. Qed.
  Lemma noread_chk {A} m (x : option A) : noread Any (chk (V := V) m x).
  Proof. destruct x; exact I. Qed.
  Lemma noread_as_slice : noread (fun x => sl_a x = 0) (vec_as_slice E).
  Proof.
    unfold vec_as_slice, vec_slice. apply (noread_bind Any); [apply noread_len|]. intros n _.
    apply (noread_bind Any); [apply noread_len|]. intros m _.
    destruct (range_limits E (rng 0 n) m) as [[a b]|] eqn:L; [|exact I]. cbn [chk bind fst snd].
    destruct (usub E b a); [|exact I]. simpl.
    unfold range_limits, rng in L. simpl in L. injection L as <- _. reflexivity.
  Qed.
  Lemma noread_spin i x : noread Any (spin_handle (V := V) i x).
  Proof. split; [reflexivity|]. intros y. exact I. Qed.
  Lemma noread_drop i x : noread Any (drop_handle (V := V) i x).
  Proof. split; [reflexivity|]. intros; exact I. Qed.

  Lemma clo_elem_map {U} f i (g : option (ans V) -> option U) n : f n = Some i -> clo f (fun _ m => m = S n) n (r_elem_map i g).
  Proof.
    intros F. unfold r_elem_map, r_option_map.
    apply (clo_bind _ (fun o m => match o with Some _ => m = S n | None => True end)).
    - apply (clo_bind _ (fun _ m => m = n)).
      + eapply clo_mono; [|apply noread_clo, noread_spin]. intros x m [_ H]; exact H.
      + intros h m ->. destruct h; [|exact I]. simpl. intros _. split.
        * intros j Hj a. simpl. congruence.
        * intros a _ . intros _. destruct (g a); simpl; auto.
    - intros o m H. destruct o; simpl; auto.
  Qed.
  Lemma clo_elem_update i : clo (fun _ => Some i) (fun _ _ => True) 0 (r_elem_update i).
  Proof.
    unfold r_elem_update, r_option_update. apply (clo_bind _ (fun _ _ => True)).
    - apply (clo_bind _ (fun _ m => m = 0)).
      + eapply clo_mono; [|apply noread_clo, noread_spin]. intros x m [_ H]; exact H.
      + intros h m ->. destruct h; [|exact I]. simpl. intros _. split.
        * intros j Hj a. simpl. congruence.
        * intros a x y. destruct (snd (to_write a x)); simpl; auto.
    - intros o m H. destruct o; simpl; auto.
  Qed.
  Lemma clo_map_elems a k : forall e, a <= e -> clo (fun n => Some (a + n)) (fun _ _ => True) (e - a) (r_map_elems (seq e k)).
  Proof.
    induction k as [|k IH]; intros e L; cbn [seq r_map_elems]; [exact I|]. apply (clo_bind _ (fun _ m => m = S (e - a))).
    - apply clo_elem_map. f_equal. lia.
    - intros u m ->. apply (clo_bind _ (fun _ _ => True)); [|intros; exact I].
      replace (S (e - a)) with (S e - a) by lia. apply IH. lia.
  Qed.
  Lemma clo_filter_elems a k : forall e, a <= e -> clo (fun n => Some (a + n)) (fun _ _ => True) (e - a) (r_filter_elems (seq e k)).
  Proof.
    induction k as [|k IH]; intros e L; cbn [seq r_filter_elems]; [exact I|]. apply (clo_bind _ (fun _ m => m = S (e - a))).
    - apply clo_elem_map. f_equal. lia.
    - intros u m ->. apply (clo_bind _ (fun _ _ => True)); [|intros; exact I].
      replace (S (e - a)) with (S e - a) by lia. apply IH. lia.
  Qed.
  Lemma clo_fold_elems a k : forall e init, a <= e -> clo (fun n => Some (a + n)) (fun _ _ => True) (e - a) (r_fold_elems (seq e k) init).
  Proof.
    induction k as [|k IH]; intros e init L; cbn [seq r_fold_elems]; [exact I|]. apply (clo_bind _ (fun _ m => m = S (e - a))).
    - apply clo_elem_map. f_equal. lia.
    - intros u m ->. replace (S (e - a)) with (S e - a) by lia. apply IH. lia.
  Qed.
  Lemma clo_cloned f i n : clo f (fun _ m => m = S n) n (lift (elem_cloned (V := V) i)).
  Proof.
    unfold elem_cloned, option_clone. cbn. intros h. destruct (fst h); cbn; auto.
  Qed.
  Lemma clo_from {A} f (p : prog V (list nat)) a (q : list nat -> rprog V A) : noread (fun l => exists n, l = seq a n) p ->
    (forall k, clo f (fun _ _ => True) 0 (q (seq a k))) -> clo f (fun _ _ => True) 0 (rbind (lift p) q).
  Proof.
    intros H F. eapply clo_bind; [apply noread_clo, H|]. intros l n [[k ->] ->]. apply F.
  Qed.
  Lemma clo_slice_reduce x : clo (fun n => Some (sl_a x + n)) (fun _ _ => True) 0 (r_slice_reduce x).
  Proof.
    unfold r_slice_reduce. apply (clo_from _ _ (sl_a x)); [apply noread_slice_iter|]. intros [|k]; cbn [seq]; [exact I|].
    apply (clo_bind _ (fun _ m => m = 1)); [apply clo_cloned|]. intros v m ->.
    apply (clo_bind _ (fun _ _ => True)); [|intros; exact I].
    replace 1 with (S (sl_a x) - sl_a x) by lia. apply clo_fold_elems. lia.
  Qed.
  Lemma clo_rmap {A B} f (g : A -> B) (p : rprog V A) n : clo f (fun _ _ => True) n p -> clo f (fun _ _ => True) n (rmap g p).
  Proof. intros H. eapply clo_bind; [exact H|]. intros; exact I. Qed.
  Theorem clo_op o : clo (lends o) (fun _ _ => True) 0 (rop_prog E o).
  Proof.
    destruct o; try apply clo_none; cbn [rop_prog lends]; apply clo_rmap.
    - eapply clo_mono; [|apply clo_elem_map]; auto.
    - apply clo_elem_update.
    - apply (clo_from _ _ 0); [apply noread_iter|]. intros k. apply (clo_map_elems 0 k 0). lia.
    - apply (clo_from _ _ 0); [apply noread_iter|]. intros k. apply (clo_filter_elems 0 k 0). lia.
    - apply (clo_from _ _ 0); [apply noread_iter|]. intros k. apply (clo_fold_elems 0 k 0). lia.
    - eapply clo_bind; [apply noread_clo, noread_as_slice|]. intros x n [H ->].
      pose proof (clo_slice_reduce x) as C. rewrite H in C. exact C.
    - apply (clo_from _ _ (sl_a x)); [apply noread_slice_iter|]. intros k.
      replace 0 with (sl_a x - sl_a x) by lia. apply clo_map_elems. lia.
    - apply (clo_from _ _ (sl_a x)); [apply noread_slice_iter|]. intros k.
      replace 0 with (sl_a x - sl_a x) by lia. apply clo_filter_elems. lia.
    - apply (clo_from _ _ (sl_a x)); [apply noread_slice_iter|]. intros k.
      replace 0 with (sl_a x - sl_a x) by lia. apply clo_fold_elems. lia.
    - apply clo_slice_reduce.
  Qed.
End Closures.

(** ** Steps and the history *)
Section Nest.
  Context {V : Type} (E : env V).
  Implicit Types (r : rcfg V) (h : list (revent V)).

  Lemma rdone_snoc h e id : rdone (h ++ [e]) id = rdone h id || is_rend id e.
  Proof. unfold rdone. rewrite existsb_app. simpl. now rewrite orb_false_r. Qed.
  Lemma rdone_accs h id j t d lg : rdone (h ++ map (NAcc j t d) lg) id = rdone h id.
  Proof.
    unfold rdone. rewrite existsb_app. replace (existsb _ (map _ lg)) with false; [apply orb_false_r|]. symmetry.
    induction lg as [|x lg IH]; [reflexivity|exact IH].
  Qed.
  Definition caller (e : revent V) : option nat :=
    match e with NInv j _ _ _ | NRet j _ _ _ | NPan j _ _ _ | NAcc j _ _ _ => Some j | NClear | NReserve _ _ => None end.
  Lemma rdone_caller h id : rdone h id = true -> exists e, In e h /\ caller e = Some id.
  Proof.
    unfold rdone. intros H. apply existsb_exists in H as (e & I & H). exists e. split; [assumption|].
    destruct e; try discriminate; simpl in *; apply Nat.eqb_eq in H as ->; reflexivity.
  Qed.
  Lemma values_app h h' id : values_read (h ++ h') id = values_read h id ++ values_read h' id.
  Proof. apply flat_map_app. Qed.
  Lemma values_fresh h id : (forall e, In e h -> caller e <> Some id) -> values_read h id = [].
  Proof.
    induction h as [|e h IH]; intros H; [reflexivity|]. unfold values_read in *. cbn [flat_map]. rewrite IH by (intros; apply H; now right).
    specialize (H e (or_introl eq_refl)). destruct e as [| | |j t d [ | | | | | | | ]| |]; try reflexivity.
    simpl in *. destruct (Nat.eqb_spec j id); [congruence|reflexivity].
  Qed.
  Lemma exec_reads t a s y s' lg id u d : exec E t a s = Done y s' lg ->
    length (values_read (map (NAcc id u d) lg) id) = after_read a 0.
  Proof.
    intros X. assert (K : values_read (map (NAcc id u d) lg) id = flat_map (fun x => match x with AcRead _ v => [v] | _ => [] end) lg).
    { clear X. induction lg as [|x lg IH]; [reflexivity|]. unfold values_read in *. cbn [map flat_map]. rewrite IH.
      destruct x; try reflexivity. now rewrite Nat.eqb_refl. }
    rewrite K. clear K. destruct a; simpl in X; unfold with_slot in X; cbn [after_read].
    all: repeat (match type of X with context [match ?e with _ => _ end] => destruct e end; try discriminate).
    all: injection X as <- <- <-; try reflexivity.
  Qed.

  Inductive move r : rcfg V -> Prop :=
  | mv_stay : move r r
  | mv_inv t o : user_turn (stack t (rrun r)) = true ->
      move r (RCfg (rsh r) (put t (Frame (length (rhist r)) o (rop_prog E o) :: stack t (rrun r)) (rrun r))
                   (rhist r ++ [NInv (length (rhist r)) t (length (stack t (rrun r))) o]) (rgiven r) (answers r))
  | mv_act t fr rest a y s lg p : stack t (rrun r) = fr :: rest -> exec E (agent t (length rest)) a (rsh r) = Done y s lg ->
      (exists k, f_prog fr = RAct a k /\ p = k y) \/ (exists ag k, f_prog fr = RSpin a ag k /\ ag y = false /\ p = k y) ->
      move r (rafter t r fr rest p s lg)
  | mv_ans t id o k rest a : stack t (rrun r) = Frame id o (RClo k) :: rest ->
      move r (RCfg (rsh r) (put t (Frame id o (k a) :: rest) (rrun r)) (rhist r) (rgiven r) (answers r ++ [(id, a)]))
  | mv_end t fr rest e g : stack t (rrun r) = fr :: rest ->
      (exists x, e = NRet (f_id fr) t (length rest) x /\ f_prog fr = RRet x) \/
      (exists m, e = NPan (f_id fr) t (length rest) m /\ f_prog fr = RPan m) ->
      move r (RCfg (rsh r) (put t rest (rrun r)) (rhist r ++ [e]) g (answers r))
  | mv_excl s e g : rrun r = [] -> caller e = None -> move r (RCfg s [] (rhist r ++ [e]) g (answers r)).
  Lemma rstep_move r l r' : rstep E r l = RNext r' -> move r r'.
  Proof.
    intros S. destruct l as [t o|t|t a| |n]; cbv beta iota zeta delta [rstep] in S.
    - destruct (user_turn _) eqn:U in S; [|discriminate]. simpl in S. destruct (has_grant _ _) in S; [|discriminate]. apply rnext_inj in S; subst r'. now constructor.
    - destruct (stack t (rrun r)) as [|fr rest] eqn:St; [discriminate|]. destruct (f_prog fr) as [v|m|a k|a again k|k] eqn:P; [| | | |discriminate].
      + apply rnext_inj in S; subst r'. eapply mv_end; eauto.
      + apply rnext_inj in S; subst r'. eapply mv_end; eauto.
      + destruct (exec _ _ _ _) as [y s lg|f] eqn:X; [|discriminate]. apply rnext_inj in S; subst r'. eapply mv_act; eauto.
      + destruct (exec _ _ _ _) as [y s lg|f] eqn:X; [|discriminate]. destruct (again y) eqn:Ag; apply rnext_inj in S; subst r'; [constructor|]. eapply mv_act; eauto 8.
    - destruct (stack t (rrun r)) as [|[id o [v|m|a' k|a' again k|k]] rest] eqn:St; try discriminate. apply rnext_inj in S; subst r'. now apply mv_ans.
    - destruct (rrun r) eqn:Q; [|discriminate]. destruct (clear _); [|apply rnext_inj in S; subst r'; constructor|discriminate]. apply rnext_inj in S; subst r'. now apply mv_excl.
    - destruct (rrun r) eqn:Q; [|discriminate]. destruct (reserve_maximum_capacity _ _ _) as [[m s]| |]; [|apply rnext_inj in S; subst r'; constructor|discriminate]. apply rnext_inj in S; subst r'. now apply mv_excl.
  Qed.

  (** the same without the state of the vector *)
  Inductive gmove r : rcfg V -> Prop :=
  | gm_stay : gmove r r
  | gm_inv t o : user_turn (stack t (rrun r)) = true ->
      gmove r (RCfg (rsh r) (put t (Frame (length (rhist r)) o (rop_prog E o) :: stack t (rrun r)) (rrun r))
                   (rhist r ++ [NInv (length (rhist r)) t (length (stack t (rrun r))) o]) (rgiven r) (answers r))
  | gm_act t fr rest a y s lg p : stack t (rrun r) = fr :: rest ->
      length (values_read (map (NAcc (f_id fr) t (length rest)) lg) (f_id fr)) = after_read a 0 -> lg = [] \/ (exists x, lg = [x]) ->
      (exists k, f_prog fr = RAct a k /\ p = k y) \/ (exists ag k, f_prog fr = RSpin a ag k /\ ag y = false /\ p = k y) ->
      gmove r (rafter t r fr rest p s lg)
  | gm_ans t id o k rest a : stack t (rrun r) = Frame id o (RClo k) :: rest ->
      gmove r (RCfg (rsh r) (put t (Frame id o (k a) :: rest) (rrun r)) (rhist r) (rgiven r) (answers r ++ [(id, a)]))
  | gm_end t fr rest e g : stack t (rrun r) = fr :: rest ->
      (exists x, e = NRet (f_id fr) t (length rest) x /\ f_prog fr = RRet x) \/
      (exists m, e = NPan (f_id fr) t (length rest) m /\ f_prog fr = RPan m) ->
      gmove r (RCfg (rsh r) (put t rest (rrun r)) (rhist r ++ [e]) g (answers r))
  | gm_excl s e g : rrun r = [] -> caller e = None -> gmove r (RCfg s [] (rhist r ++ [e]) g (answers r)).
  Lemma move_gmove r r' : move r r' -> gmove r r'.
  Proof.
    intros M. destruct M as [|t o U|t fr rest a y s lg p St X P|t id o k rest a St|t fr rest e g St P|s e g Q O]; try (econstructor; eauto; fail).
    eapply gm_act; eauto; [eapply exec_reads; eauto|]. destruct (acc_list E _ _ _ _ _ _ X) as [->|(x & -> & _)]; eauto.
  Qed.
  Lemma gri_move r r' : ri r -> gmove r r' -> ri r'.
  Proof.
    intros R M. destruct M as [|t o U|t fr rest a y s lg p St X Y P|t id o k rest a St|t fr rest e g St P|s e g Q O]; [assumption| | | | |].
    - constructor; cbn [rsh rrun rhist rgiven answers].
      + intros t' d fr. rewrite stack_put. assert (Old : forall t' d fr, frame_at (stack t' (rrun r)) d = Some fr ->
          nth_error (rhist r ++ [NInv (length (rhist r)) t (length (stack t (rrun r))) o]) (f_id fr) = Some (NInv (f_id fr) t' d (f_op fr))).
        { intros t1 d1 fr1 H. apply (ri_ids _ R) in H. rewrite nth_error_app1; [assumption|]. apply nth_error_Some. congruence. }
        destruct (Nat.eqb_spec t' t) as [->|N]; [|apply Old]. rewrite frame_push. destruct (Nat.eqb_spec d (length (stack t (rrun r)))) as [->|]; [|apply Old].
        intros [= <-]. simpl. rewrite nth_error_app2, Nat.sub_diag by lia. reflexivity.
      + intros id a H. rewrite app_length. pose proof (ri_log _ R id a H). lia.
      + intros t' s' H. apply put_in in H as [[-> H]|H]; [discriminate|]. eapply ri_ne; eauto.
    - unfold rafter. eapply ri_upd; eauto. apply R.
    - rewrite <- (app_nil_r (rhist r)). apply (ri_upd r t (Frame id o (RClo k)) (k a) rest); [assumption|assumption|].
      intros j b H. apply in_app_or in H as [H|[H|[]]]; [eapply ri_log; eauto|]. injection H as <- <-.
      apply nth_error_Some. pose proof (ri_ids _ R t (length rest) (Frame id o (RClo k))) as K. rewrite St, top_frame in K. specialize (K eq_refl). cbn [f_id] in K. congruence.
    - eapply ri_pop; eauto.
    - constructor; cbn [rsh rrun rhist rgiven answers]; try contradiction.
      + intros t d fr. unfold frame_at. destruct d; discriminate.
      + intros id a H. rewrite app_length. pose proof (ri_log _ R id a H). lia.
  Qed.

  (** The frames are the open calls; those below the innermost one are at a closure. *)
  Record nest r : Prop := MkNest {
    ne_own : forall e id, In e (rhist r) -> caller e = Some id -> id < length (rhist r);
    ne_open : forall t d fr, frame_at (stack t (rrun r)) d = Some fr -> rdone (rhist r) (f_id fr) = false;
    ne_frame : forall id t d o, ropen (rhist r) id t d o -> exists fr, frame_at (stack t (rrun r)) d = Some fr /\ f_id fr = id /\ f_op fr = o;
    ne_susp : forall t d fr, frame_at (stack t (rrun r)) d = Some fr -> S d < length (stack t (rrun r)) -> exists k, f_prog fr = RClo k;
    ne_clo : forall t d fr, frame_at (stack t (rrun r)) d = Some fr ->
      clo (lends (f_op fr)) (fun _ _ => True) (length (values_read (rhist r) (f_id fr))) (f_prog fr)
  }.
  Lemma nest_start l0 c0 m0 : nest (rstart l0 c0 m0).
  Proof.
    constructor; cbn [rstart rrun rhist]; try (intros t d fr; unfold frame_at; destruct d; discriminate); try contradiction.
    intros id t d o [H _]. destruct id; discriminate.
  Qed.
  Lemma ne_fresh r : nest r -> rdone (rhist r) (length (rhist r)) = false.
  Proof.
    intros N. destruct (rdone _ _) eqn:Q; [|reflexivity]. apply rdone_caller in Q as (e & I & O). apply (ne_own _ N) in O; [lia|assumption].
  Qed.
  Lemma ne_unread r : nest r -> values_read (rhist r) (length (rhist r)) = [].
  Proof. intros N. apply values_fresh. intros e I O. apply (ne_own _ N) in O; [lia|assumption]. Qed.
  Lemma frame_under (fr : frame V) s d : d <> length s -> frame_at (fr :: s) d = frame_at s d.
  Proof. intros H. rewrite frame_push. destruct (Nat.eqb_spec d (length s)); [contradiction|reflexivity]. Qed.
  Lemma values_other h id j t d lg : id <> j -> values_read (h ++ map (NAcc j t d) lg) id = values_read h id.
  Proof.
    intros N. rewrite values_app. replace (values_read (map _ lg) id) with (@nil V); [apply app_nil_r|]. symmetry. apply values_fresh.
    intros e I. apply in_map_iff in I as (x & <- & _). simpl. congruence.
  Qed.
  Lemma values_snoc h id e : (forall j t d x, e <> NAcc j t d x) -> values_read (h ++ [e]) id = values_read h id.
  Proof. intros N. rewrite values_app. destruct e; simpl; try apply app_nil_r. exfalso. eapply N. reflexivity. Qed.
  Lemma nth_old {A} (l l' : list A) k x : nth_error l k = Some x -> nth_error (l ++ l') k = Some x.
  Proof. intros H. rewrite nth_error_app1; [assumption|]. apply nth_error_Some. congruence. Qed.
  Lemma nth_new {A} (l : list A) y k x : nth_error (l ++ [y]) k = Some x -> nth_error l k = Some x \/ k = length l /\ x = y.
  Proof.
    intros H. destruct (Nat.lt_ge_cases k (length l)) as [L|L].
    - rewrite nth_error_app1 in H by assumption. auto.
    - rewrite nth_error_app2 in H by assumption. destruct (k - length l) as [|n] eqn:D; [|destruct n; discriminate]. injection H as <-. right. split; [lia|reflexivity].
  Qed.
  Lemma caller_accs e h j t d lg id : In e (h ++ map (NAcc (V := V) j t d) lg) -> caller e = Some id -> In e h \/ id = j.
  Proof. intros I O. apply in_app_or in I as [I|I]; [auto|]. apply in_map_iff in I as (x & <- & _). injection O as <-. auto. Qed.
  Lemma inv_accs h j t d lg k id u d' (o : rop V) : nth_error (h ++ map (NAcc j t d) lg) k = Some (NInv id u d' o) -> nth_error h k = Some (NInv id u d' o).
  Proof.
    intros H. destruct (Nat.lt_ge_cases k (length h)) as [L|L].
    - now rewrite nth_error_app1 in H.
    - rewrite nth_error_app2 in H by assumption. apply nth_error_In, in_map_iff in H as (x & Q & _). discriminate.
  Qed.
  Lemma nest_gmove r r' : ri r -> nest r -> gmove r r' -> nest r'.
  Proof.
    intros R N M. destruct M as [|t o U|t fr rest a y s lg p St X Y P|t id o k rest a St|t fr rest e g St P|s e g Q O]; [assumption| | | | |].
    - constructor; cbn [rsh rrun rhist rgiven answers].
      + intros e id I O. rewrite app_length. cbn [length]. apply in_app_or in I as [I|[<-|[]]]; [pose proof (ne_own _ N e id I O); lia|].
        injection O as <-. lia.
      + intros t' d fr. rewrite stack_put, rdone_snoc. cbn [is_rend]. rewrite orb_false_r. intros H.
        destruct (Nat.eqb_spec t' t) as [->|]; [|eapply ne_open; eauto]. rewrite frame_push in H. destruct (d =? _); [|eapply ne_open; eauto].
        injection H as <-. simpl. now apply ne_fresh.
      + intros id t' d o' [H D]. rewrite rdone_snoc in D. cbn [is_rend] in D. rewrite orb_false_r in D. rewrite stack_put.
        apply nth_new in H as [H|[-> H]].
        * destruct (ne_frame _ N id t' d o' (conj H D)) as (fr & F & I). exists fr. split; [|assumption].
          destruct (Nat.eqb_spec t' t) as [->|]; [|assumption]. rewrite frame_under; [assumption|]. apply frame_len in F. lia.
        * injection H as -> -> ->. rewrite Nat.eqb_refl. eexists. split; [apply top_frame|]. split; reflexivity.
      + intros t' d fr. rewrite stack_put. destruct (Nat.eqb_spec t' t) as [->|]; [|apply (ne_susp _ N)]. intros H L. cbn [length] in L.
        rewrite frame_under in H by lia. destruct (Nat.eq_dec (S d) (length (stack t (rrun r)))) as [e|]; [|eapply ne_susp; eauto; lia].
        destruct (stack t (rrun r)) as [|top s] eqn:Q; [discriminate|]. cbn [length] in e. assert (d = length s) by lia. subst d. rewrite top_frame in H. injection H as ->.
        simpl in U. destruct (f_prog fr); try discriminate. eauto.
      + intros t' d fr. rewrite stack_put. rewrite values_snoc by discriminate. intros H.
        destruct (Nat.eqb_spec t' t) as [->|]; [|eapply ne_clo; eauto]. rewrite frame_push in H. destruct (d =? _); [|eapply ne_clo; eauto].
        injection H as <-. cbn [f_op f_id f_prog]. rewrite ne_unread by assumption. apply clo_op.
    - assert (Fr : frame_at (stack t (rrun r)) (length rest) = Some fr) by (rewrite St; apply top_frame).
      assert (Lt : f_id fr < length (rhist r)) by (apply nth_error_Some; rewrite (ri_ids _ R _ _ _ Fr); discriminate).
      assert (Old : forall u d f', (u <> t \/ d <> length rest) -> frame_at (if u =? t then Frame (f_id fr) (f_op fr) p :: rest else stack u (rrun r)) d = Some f' ->
                frame_at (stack u (rrun r)) d = Some f' /\ f_id f' <> f_id fr).
      { intros u d f' D H. assert (K : frame_at (stack u (rrun r)) d = Some f').
        { destruct (Nat.eqb_spec u t) as [->|]; [|assumption]. destruct D as [D|D]; [contradiction|]. rewrite frame_under in H by assumption. rewrite St. now rewrite frame_under. }
        split; [assumption|]. intros e. destruct (ids_differ _ _ _ _ _ _ _ R K Fr e). subst. destruct D; auto. }
      unfold rafter. constructor; cbn [rsh rrun rhist rgiven answers].
      + intros e id I O. rewrite app_length. destruct (caller_accs _ _ _ _ _ _ _ I O) as [I'| ->]; [|lia]. pose proof (ne_own _ N e id I' O). lia.
      + intros t' d f'. rewrite stack_put, rdone_accs. intros H. destruct (Nat.eq_dec t' t) as [->|D]; [|apply Old in H as [H _]; [eapply ne_open; eauto|auto]].
        destruct (Nat.eq_dec d (length rest)) as [->|D]; [|apply Old in H as [H _]; [eapply ne_open; eauto|auto]].
        rewrite Nat.eqb_refl, top_frame in H. injection H as <-. cbn [f_id]. eapply ne_open; eauto.
      + intros id t' d o [H D]. rewrite rdone_accs in D. apply inv_accs in H. destruct (ne_frame _ N id t' d o (conj H D)) as (f' & F & I). rewrite stack_put.
        destruct (Nat.eqb_spec t' t) as [->|]; [|eauto]. rewrite frame_push. destruct (Nat.eqb_spec d (length rest)) as [->|].
        * rewrite Fr in F. injection F as <-. eexists. split; [reflexivity|]. exact I.
        * rewrite St, frame_under in F by assumption. eauto.
      + intros t' d f'. rewrite stack_put. intros H L. destruct (Nat.eq_dec t' t) as [->|D].
        * rewrite Nat.eqb_refl in *. cbn [length] in L. rewrite frame_under in H by lia. apply (ne_susp _ N t d); rewrite St; [rewrite frame_under by lia; assumption|exact L].
        * destruct (Nat.eqb_spec t' t); [contradiction|]. eapply ne_susp; eauto.
      + intros t' d f'. rewrite stack_put. intros H. destruct (Nat.eq_dec t' t) as [->|D].
        2:{ apply Old in H as [H Df]; [|auto]. rewrite values_other by assumption. eapply ne_clo; eauto. }
        destruct (Nat.eq_dec d (length rest)) as [->|D].
        2:{ apply Old in H as [H Df]; [|auto]. rewrite values_other by assumption. eapply ne_clo; eauto. }
        rewrite Nat.eqb_refl, top_frame in H. injection H as <-. cbn [f_op f_id f_prog]. rewrite values_app, app_length, X.
        pose proof (ne_clo _ N _ _ _ Fr) as C. replace (length _ + _) with (after_read a (length (values_read (rhist r) (f_id fr)))) by (destruct a; simpl; lia).
        destruct P as [(k & P & ->)|(ag & k & P & _ & ->)]; rewrite P in C; apply C.
    - assert (Fr : frame_at (stack t (rrun r)) (length rest) = Some (Frame id o (RClo k))) by (rewrite St; apply top_frame).
      constructor; cbn [rsh rrun rhist rgiven answers].
      + apply N.
      + intros t' d f'. rewrite stack_put. intros H. destruct (Nat.eqb_spec t' t) as [->|]; [|eapply ne_open; eauto].
        rewrite frame_push in H. destruct (Nat.eqb_spec d (length rest)) as [->|]; [injection H as <-; apply (ne_open _ N _ _ _ Fr)|].
        apply (ne_open _ N t d). rewrite St, frame_under; assumption.
      + intros id' t' d o' H. destruct (ne_frame _ N _ _ _ _ H) as (f' & F & I). rewrite stack_put. destruct (Nat.eqb_spec t' t) as [->|]; [|eauto].
        rewrite frame_push. destruct (Nat.eqb_spec d (length rest)) as [->|].
        * rewrite Fr in F. injection F as <-. eexists. split; [reflexivity|]. exact I.
        * rewrite St, frame_under in F by assumption. eauto.
      + intros t' d f'. rewrite stack_put. intros H L. destruct (Nat.eqb_spec t' t) as [->|]; [|eapply ne_susp; eauto].
        cbn [length] in L. rewrite frame_under in H by lia. apply (ne_susp _ N t d); rewrite St; [rewrite frame_under by lia; assumption|exact L].
      + intros t' d f'. rewrite stack_put. intros H. destruct (Nat.eqb_spec t' t) as [->|]; [|eapply ne_clo; eauto].
        rewrite frame_push in H. destruct (Nat.eqb_spec d (length rest)) as [->|].
        * injection H as <-. pose proof (ne_clo _ N _ _ _ Fr) as [_ C]. apply C.
        * apply (ne_clo _ N t d). rewrite St, frame_under; assumption.
    - assert (Fr : frame_at (stack t (rrun r)) (length rest) = Some fr) by (rewrite St; apply top_frame).
      assert (Lt : f_id fr < length (rhist r)) by (apply nth_error_Some; rewrite (ri_ids _ R _ _ _ Fr); discriminate).
      assert (Old : forall u d f', frame_at (if u =? t then rest else stack u (rrun r)) d = Some f' ->
                frame_at (stack u (rrun r)) d = Some f' /\ f_id f' <> f_id fr).
      { intros u d f' H. assert (K : frame_at (stack u (rrun r)) d = Some f').
        { destruct (Nat.eqb_spec u t) as [->|]; [|assumption]. pose proof (frame_len _ _ _ H). rewrite St. rewrite frame_under by lia. assumption. }
        split; [assumption|]. intros D. destruct (ids_differ _ _ _ _ _ _ _ R K Fr D). subst. rewrite Nat.eqb_refl in H. apply frame_len in H. lia. }
      assert (Oe : caller e = Some (f_id fr)) by (destruct P as [(x & -> & _)|(m & -> & _)]; reflexivity).
      assert (Re : forall id, is_rend id e = (f_id fr =? id)) by (destruct P as [(x & -> & _)|(m & -> & _)]; reflexivity).
      assert (Ne : forall j t d x, e <> NAcc j t d x) by (destruct P as [(x & -> & _)|(m & -> & _)]; discriminate).
      constructor; cbn [rsh rrun rhist rgiven answers].
      + intros x id I O. rewrite app_length. cbn [length]. apply in_app_or in I as [I|[<-|[]]]; [pose proof (ne_own _ N x id I O); lia|]. rewrite Oe in O. injection O as <-. lia.
      + intros t' d f'. rewrite stack_put, rdone_snoc, Re. intros H. apply Old in H as [H D]. rewrite (ne_open _ N _ _ _ H). apply Nat.eqb_neq. congruence.
      + intros id t' d o [H D]. rewrite rdone_snoc, Re in D. apply orb_false_elim in D as [D D']. apply nth_new in H as [H|[-> H]].
        * destruct (ne_frame _ N id t' d o (conj H D)) as (f' & F & I). exists f'. split; [|assumption]. rewrite stack_put.
          destruct (Nat.eqb_spec t' t) as [->|]; [|assumption]. rewrite St in F. rewrite frame_push in F. destruct (d =? length rest); [|assumption].
          injection F as <-. destruct I as [<- _]. now rewrite Nat.eqb_refl in D'.
        * destruct P as [(x & -> & _)|(m & -> & _)]; discriminate.
      + intros t' d f'. rewrite stack_put. intros H L. pose proof (Old _ _ _ H) as [K _]. apply (ne_susp _ N t' d); [assumption|].
        destruct (Nat.eqb_spec t' t) as [->|]; [|assumption]. rewrite St. cbn [length]. lia.
      + intros t' d f'. rewrite stack_put. rewrite values_snoc by assumption. intros H. apply Old in H as [H _]. eapply ne_clo; eauto.
    - assert (Emp : forall t d (fr : frame V), frame_at (stack t []) d = Some fr -> False) by (intros t [|d] fr; unfold frame_at; discriminate).
      constructor; cbn [rsh rrun rhist rgiven answers]; try (intros; exfalso; eapply Emp; eassumption).
      + intros x id I Ox. rewrite app_length. apply in_app_or in I as [I|[<-|[]]]; [pose proof (ne_own _ N x id I Ox); lia|congruence].
      + intros id t d o [H D]. rewrite rdone_snoc in D. apply orb_false_elim in D as [D _]. apply nth_new in H as [H|[-> H]]; [|subst e; discriminate].
        destruct (ne_frame _ N id t d o (conj H D)) as (f' & F & I). rewrite Q in F. exfalso. eapply Emp; eauto.
  Qed.
  Lemma nest_move r r' : ri r -> nest r -> move r r' -> nest r'.
  Proof. intros R N M. eapply nest_gmove; eauto. now apply move_gmove. Qed.

  (** ** Prefixes of a sequence of moves *)
  Inductive gexec : rcfg V -> Prop :=
  | ge_start s : gexec (RCfg s [] [] [] [])
  | ge_step r r' : gexec r -> gmove r r' -> gexec r'.
  Lemma gnest_of r : gexec r -> ri r /\ nest r.
  Proof.
    induction 1 as [s|r r' _ [R N] M].
    - assert (Emp : forall t d (fr : frame V), frame_at (stack t []) d = Some fr -> False) by (intros t [|d] fr; unfold frame_at; discriminate).
      split; constructor; cbn [rrun rhist answers]; try contradiction; try (intros; exfalso; eapply Emp; eassumption).
      intros id t d o [H _]. destruct id; discriminate.
    - split; [eapply gri_move|eapply nest_gmove]; eauto.
  Qed.
  Lemma gmove_grows r r' : gmove r r' -> rhist r' = rhist r \/ exists e, rhist r' = rhist r ++ [e].
  Proof.
    intros M. destruct M as [|t o U|t fr rest a y s lg p St X Y P|t id o k rest a St|t fr rest e g St P|s e g Q O]; cbn [rhist]; eauto.
    unfold rafter. cbn [rhist]. destruct Y as [->|(x & ->)]; cbn [map]; [rewrite app_nil_r|]; eauto.
  Qed.
  Lemma gprefix r k e : gexec r -> nth_error (rhist r) k = Some e -> exists r1 r2,
    gexec r1 /\ gmove r1 r2 /\ rhist r1 = firstn k (rhist r) /\ rhist r2 = rhist r1 ++ [e].
  Proof.
    induction 1 as [s|r r' X IH M]; intros H.
    - destruct k; discriminate.
    - assert (Old : nth_error (rhist r) k = Some e -> firstn k (rhist r') = firstn k (rhist r) -> exists r1 r2,
        gexec r1 /\ gmove r1 r2 /\ rhist r1 = firstn k (rhist r') /\ rhist r2 = rhist r1 ++ [e]).
      { intros K F. destruct (IH K) as (r1 & r2 & I0 & I1 & I2 & I3). exists r1, r2. rewrite F. auto. }
      destruct (gmove_grows _ _ M) as [Hh|(e' & Hh)]; rewrite Hh in *.
      + now apply Old.
      + apply nth_new in H as [H|[-> ->]].
        * apply Old; [assumption|]. rewrite firstn_app. assert (k < length (rhist r)) by (apply nth_error_Some; congruence).
          replace (k - length (rhist r)) with 0 by lia. simpl. now rewrite app_nil_r.
        * exists r, r'. split; [assumption|]. split; [assumption|]. rewrite firstn_app, Nat.sub_diag, firstn_all. simpl. rewrite app_nil_r. auto.
  Qed.

  (** An event of call [id] after its start is made by the innermost call of its thread. *)
  Lemma g_top_event r r' e id t d o : gexec r -> gmove r r' -> rhist r' = rhist r ++ [e] -> caller e = Some id ->
    nth_error (rhist r) id = Some (NInv id t d o) -> exists fr rest, stack t (rrun r) = fr :: rest /\ f_id fr = id /\ length rest = d.
  Proof.
    intros X S H O I. destruct (gnest_of _ X) as [R N].
    assert (Top : forall t' fr rest, stack t' (rrun r) = fr :: rest -> f_id fr = id -> exists fr rest, stack t (rrun r) = fr :: rest /\ f_id fr = id /\ length rest = d).
    { intros t' fr rest St Id. pose proof (ri_ids _ R t' (length rest) fr) as K. rewrite St, top_frame in K. specialize (K eq_refl). rewrite Id, I in K.
      injection K as -> -> _. eauto. }
    destruct S as [|t' o' U|t' fr rest a y s lg p St Ex Ey P|t' id' o' k rest a St|t' fr rest e' g St P|s e' g Q O']; cbn [rhist] in H.
    - exfalso. apply (f_equal (@length _)) in H. rewrite app_length in H. simpl in H. lia.
    - apply app_inj_tail in H as [_ <-]. injection O as <-. exfalso. apply (f_equal (fun x => match x with Some _ => true | None => false end)) in I.
      simpl in I. assert (K : nth_error (rhist r) (length (rhist r)) = None) by (apply nth_error_None; lia). rewrite K in I. discriminate.
    - unfold rafter in H. cbn [rhist] in H. apply app_inv_head in H. destruct lg as [|x lg]; [discriminate|]. injection H as <- _. injection O as O. eapply Top; eauto.
    - exfalso. apply (f_equal (@length _)) in H. rewrite app_length in H. simpl in H. lia.
    - apply app_inj_tail in H as [_ <-]. eapply Top; eauto. destruct P as [(x & -> & _)|(m & -> & _)]; injection O; auto.
    - apply app_inj_tail in H as [_ <-]. congruence.
  Qed.
  Lemma firstn_nth {A} (l : list A) k n : n < k -> nth_error (firstn k l) n = nth_error l n.
  Proof. revert l n. induction k; intros l n L; [lia|]. destruct l; [now destruct n|]. destruct n; simpl; [reflexivity|]. apply IHk. lia. Qed.
  Lemma firstn_old {A} (l : list A) k n x : nth_error (firstn k l) n = Some x -> n < k /\ nth_error l n = Some x.
  Proof.
    intros H. assert (L : n < length (firstn k l)) by (apply nth_error_Some; congruence). rewrite firstn_length in L.
    split; [lia|]. now rewrite firstn_nth in H by lia.
  Qed.
  Lemma rdone_firstn (h : list (revent V)) k n id : k <= n -> rdone (firstn n h) id = false -> rdone (firstn k h) id = false.
  Proof.
    intros L H. rewrite <- (firstn_skipn k (firstn n h)) in H. rewrite firstn_firstn, Nat.min_l in H by assumption.
    unfold rdone in H. rewrite existsb_app in H. now apply orb_false_elim in H.
  Qed.
  (** Both calls are on the stack as long as the inner one is open, ... *)
  Lemma g_both_open r id2 id1 o : gexec r -> inside (rhist r) id2 id1 o -> rdone (rhist r) id2 = false ->
    rdone (rhist r) id1 = false ->
    exists t d fr k, frame_at (stack t (rrun r)) d = Some fr /\ f_id fr = id1 /\ f_op fr = o /\ f_prog fr = RClo k /\
                     nth_error (rhist r) id1 = Some (NInv id1 t d o) /\ S d < length (stack t (rrun r)).
  Proof.
    intros X (t & d & d2 & o2 & Ld & (I1 & D1) & I2) D2 D. destruct (gnest_of _ X) as [R N]. apply firstn_old in I1 as [L1 I1].
    destruct (ne_frame _ N id1 t d o (conj I1 D)) as (fr & F & Hi & Ho). destruct (ne_frame _ N id2 t d2 o2 (conj I2 D2)) as (fr2 & F2 & _).
    apply frame_len in F2. destruct (ne_susp _ N _ _ _ F) as (k & P); [lia|]. exists t, d, fr, k. repeat (split; [assumption|]). lia.
  Qed.
  Lemma inside_firstn (h : list (revent V)) id2 id1 (o : rop V) k : id2 < k -> inside h id2 id1 o -> inside (firstn k h) id2 id1 o.
  Proof.
    intros L (t & d & d2 & o2 & Ld & O & I). exists t, d, d2, o2. rewrite firstn_firstn, Nat.min_l by lia. rewrite firstn_nth by assumption. auto.
  Qed.
  (** ... and the outer one makes no step. *)
  Lemma g_outer_silent r id2 id1 o k e : gexec r -> inside (rhist r) id2 id1 o -> id2 < k ->
    rdone (firstn k (rhist r)) id2 = false -> nth_error (rhist r) k = Some e -> caller e <> Some id1.
  Proof.
    intros X Ins Lk. revert e. induction k as [k IH] using (well_founded_induction lt_wf). intros e D2 He O.
    destruct (gprefix _ _ _ X He) as (r1 & r2 & X1 & S & H1 & H2).
    assert (D1 : rdone (rhist r1) id1 = false).
    { rewrite H1. destruct (rdone (firstn k (rhist r)) id1) eqn:Q; [|reflexivity]. exfalso. unfold rdone in Q. apply existsb_exists in Q as (e' & I & Re).
      apply In_nth_error in I as (n & Hn). apply firstn_old in Hn as [Ln Hn].
      assert (O' : caller e' = Some id1) by (destruct e'; try discriminate; simpl in *; apply Nat.eqb_eq in Re as ->; reflexivity).
      destruct (Nat.lt_trichotomy n id2) as [L|[->|L]].
      - destruct Ins as (t & d & d2 & o2 & Ld & (_ & Dn) & _). unfold rdone in Dn.
        assert (existsb (is_rend id1) (firstn id2 (rhist r)) = true); [|congruence]. apply existsb_exists. exists e'. split; [|assumption].
        apply nth_error_In with n. now rewrite firstn_nth.
      - destruct Ins as (t & d & d2 & o2 & Ld & _ & I2). rewrite Hn in I2. injection I2 as ->. discriminate.
      - refine (IH n Ln L e' _ Hn O'). eapply rdone_firstn; [|exact D2]. lia. }
    pose proof (inside_firstn _ _ _ _ _ Lk Ins) as Ins1. rewrite <- H1 in Ins1. rewrite <- H1 in D2.
    destruct (g_both_open _ _ _ _ X1 Ins1 D2 D1) as (t & d & fr & kk & F & Fi & Fo & Fp & I1 & Ls).
    destruct (g_top_event _ _ _ _ _ _ _ X1 S H2 O I1) as (fr' & rest & St & _ & Ld). rewrite St in Ls. simpl in Ls. lia.
  Qed.
  Lemma g_outer_open r id2 id1 o : gexec r -> inside (rhist r) id2 id1 o -> rdone (rhist r) id2 = false -> rdone (rhist r) id1 = false.
  Proof.
    intros X Ins D2. destruct (rdone (rhist r) id1) eqn:Q; [|reflexivity]. exfalso. unfold rdone in Q. apply existsb_exists in Q as (e' & I & Re).
    apply In_nth_error in I as (n & Hn).
    assert (O' : caller e' = Some id1) by (destruct e'; try discriminate; simpl in *; apply Nat.eqb_eq in Re as ->; reflexivity).
    destruct (Nat.lt_trichotomy n id2) as [L|[->|L]].
    - destruct Ins as (t & d & d2 & o2 & Ld & (_ & Dn) & _). unfold rdone in Dn.
      assert (existsb (is_rend id1) (firstn id2 (rhist r)) = true); [|congruence]. apply existsb_exists. exists e'. split; [|assumption].
      apply nth_error_In with n. now rewrite firstn_nth.
    - destruct Ins as (t & d & d2 & o2 & Ld & _ & I2). rewrite Hn in I2. injection I2 as ->. discriminate.
    - refine (g_outer_silent _ _ _ _ _ _ X Ins L _ Hn O'). apply (rdone_firstn _ n (length (rhist r))); [|now rewrite firstn_all].
      apply Nat.lt_le_incl, nth_error_Some. congruence.
  Qed.
  Lemma values_since (h : list (revent V)) id n : n <= length h -> (forall k e, n <= k -> nth_error h k = Some e -> caller e <> Some id) -> values_read h id = values_read (firstn n h) id.
  Proof.
    intros L H. rewrite <- (firstn_skipn n h) at 1. rewrite values_app. replace (values_read (skipn n h) id) with (@nil V); [apply app_nil_r|].
    symmetry. apply values_fresh. intros e I. apply In_nth_error in I as (k & I). apply (H (n + k)); [lia|]. rewrite <- I. clear H L.
    revert h I. induction n; intros h I; [reflexivity|]. destruct h; [destruct k; discriminate|]. simpl. now apply IHn.
  Qed.
  Lemma g_outer_values r id2 id1 o : gexec r -> inside (rhist r) id2 id1 o -> rdone (rhist r) id2 = false ->
    values_read (rhist r) id1 = values_read (firstn id2 (rhist r)) id1.
  Proof.
    intros X Ins D2. pose proof Ins as (t & d & d2 & o2 & Ld & (I1 & _) & I2). apply firstn_old in I1 as [L1 _].
    assert (L2 : id2 < length (rhist r)) by (apply nth_error_Some; congruence). apply values_since; [lia|].
    intros k e Lk He. destruct (Nat.eq_dec k id2) as [->|].
    - rewrite He in I2. injection I2 as ->. simpl. intros [= ->]. lia.
    - apply (g_outer_silent _ _ _ _ k e X Ins); [lia| |assumption]. apply (rdone_firstn _ k (length (rhist r))); [|now rewrite firstn_all].
      apply Nat.lt_le_incl, nth_error_Some. congruence.
  Qed.
End Nest.

(** ** Prefixes of an execution *)
Section Prefix.
  Context {V : Type} (E : env V) (ro nl : bool) (l0 : list V) (c0 m0 : nat).
  Implicit Types (r : rcfg V).

  Lemma hist_grows r l r' : rstep E r l = RNext r' -> rhist r' = rhist r \/ exists e, rhist r' = rhist r ++ [e].
  Proof.
    intros S. destruct (rstep_move E _ _ _ S) as [|t o U|t fr rest a y s lg p St X P|t id o k rest a St|t fr rest e g St P|s e g Q O]; cbn [rhist]; eauto.
    unfold rafter. cbn [rhist]. destruct (acc_list E _ _ _ _ _ _ X) as [->|(x & -> & _)]; cbn [map]; [rewrite app_nil_r|]; eauto.
  Qed.
  Lemma rexecution_step r l r' : rexecution E ro nl l0 c0 m0 r -> rclient E ro nl (length l0) r l -> rstep E r l = RNext r' -> rexecution E ro nl l0 c0 m0 r'.
  Proof. intros (A & B & C & D & R) P S. repeat (split; [assumption|]). econstructor; eauto. Qed.
  Lemma rexecution_trans r r' : rexecution E ro nl l0 c0 m0 r -> rreach E (rclient E ro nl (length l0)) r r' ->
    rexecution E ro nl l0 c0 m0 r' /\ (exists h, rhist r' = rhist r ++ h) /\ exists x, answers r' = answers r ++ x.
  Proof.
    intros X R. induction R as [|r1 l r2 R (X1 & (h & H) & x & A) P S].
    - split; [assumption|]. split; exists []; now rewrite app_nil_r.
    - split; [eapply rexecution_step; eauto|]. destruct (log_grows _ _ _ _ S) as (x' & A').
      split; [|exists (x ++ x'); rewrite app_assoc; congruence].
      destruct (hist_grows _ _ _ S) as [H'|(e & H')]; rewrite H', H; [exists h; reflexivity|exists (h ++ [e]); now rewrite app_assoc].
  Qed.
  Lemma nest_of r : rexecution E ro nl l0 c0 m0 r -> ri r /\ nest r.
  Proof.
    intros (EO & CO & Le & Lt & Re). induction Re as [|r l r' Re [R N] P St].
    - split; [apply ri_start|apply nest_start].
    - split; [eapply ri_step; eauto|]. eapply nest_move; eauto. eapply rstep_move; eauto.
  Qed.
  Lemma prefix_reach r k e : rexecution E ro nl l0 c0 m0 r -> nth_error (rhist r) k = Some e -> exists r1 l r2,
    rexecution E ro nl l0 c0 m0 r1 /\ rclient E ro nl (length l0) r1 l /\ rstep E r1 l = RNext r2 /\ rhist r1 = firstn k (rhist r) /\ rhist r2 = rhist r1 ++ [e] /\
    rreach E (rclient E ro nl (length l0)) r2 r.
  Proof.
    intros (EO & CO & Le & Lt & Re). induction Re as [|r l r' Re IH P St]; intros H.
    - destruct k; discriminate.
    - assert (X : rexecution E ro nl l0 c0 m0 r) by (repeat (split; [assumption|]); exact Re).
      assert (Old : nth_error (rhist r) k = Some e -> firstn k (rhist r') = firstn k (rhist r) -> exists r1 l r2,
        rexecution E ro nl l0 c0 m0 r1 /\ rclient E ro nl (length l0) r1 l /\ rstep E r1 l = RNext r2 /\ rhist r1 = firstn k (rhist r') /\ rhist r2 = rhist r1 ++ [e] /\
        rreach E (rclient E ro nl (length l0)) r2 r').
      { intros K F. destruct (IH K) as (r1 & l1 & r2 & I0 & I1 & I2 & I3 & I4 & I5). exists r1, l1, r2. rewrite F. repeat (split; [assumption|]).
        econstructor; eauto. }
      destruct (hist_grows _ _ _ St) as [Hh|(e' & Hh)]; rewrite Hh in *.
      + now apply Old.
      + apply nth_new in H as [H|[-> ->]].
        * apply Old; [assumption|]. rewrite firstn_app. assert (k < length (rhist r)) by (apply nth_error_Some; congruence).
          replace (k - length (rhist r)) with 0 by lia. simpl. now rewrite app_nil_r.
        * exists r, l, r'. split; [assumption|]. split; [assumption|]. split; [assumption|]. rewrite firstn_app, Nat.sub_diag, firstn_all. simpl. rewrite app_nil_r.
          split; [reflexivity|]. split; [assumption|]. constructor.
  Qed.
  Lemma prefix r k e : rexecution E ro nl l0 c0 m0 r -> nth_error (rhist r) k = Some e -> exists r1 l r2,
    rexecution E ro nl l0 c0 m0 r1 /\ rstep E r1 l = RNext r2 /\ rhist r1 = firstn k (rhist r) /\ rhist r2 = rhist r1 ++ [e] /\
    exists x, answers r = answers r1 ++ x.
  Proof.
    intros X H. destruct (prefix_reach _ _ _ X H) as (r1 & l & r2 & X1 & C & S & H1 & H2 & R). exists r1, l, r2. repeat (split; [assumption|]).
    destruct (rexecution_trans _ _ (rexecution_step _ _ _ X1 C S) R) as (_ & _ & x & A). destruct (log_grows _ _ _ _ S) as (x' & A').
    exists (x' ++ x). rewrite app_assoc. congruence.
  Qed.

  Lemma execution_gexec r : rexecution E ro nl l0 c0 m0 r -> gexec E r.
  Proof.
    intros (EO & CO & Le & Lt & Re). induction Re as [|r l r' Re IH P St]; [constructor|]. econstructor; [exact IH|]. eapply move_gmove, rstep_move; eauto.
  Qed.
  Lemma top_event r l r' e id t d o : rexecution E ro nl l0 c0 m0 r -> rstep E r l = RNext r' -> rhist r' = rhist r ++ [e] -> caller e = Some id ->
    nth_error (rhist r) id = Some (NInv id t d o) -> exists fr rest, stack t (rrun r) = fr :: rest /\ f_id fr = id /\ length rest = d.
  Proof. intros X S. eapply g_top_event; [apply execution_gexec; eassumption|]. eapply move_gmove, rstep_move; eauto. Qed.
  Lemma both_open r id2 id1 o : rexecution E ro nl l0 c0 m0 r -> inside (rhist r) id2 id1 o -> rdone (rhist r) id2 = false ->
    rdone (rhist r) id1 = false ->
    exists t d fr k, frame_at (stack t (rrun r)) d = Some fr /\ f_id fr = id1 /\ f_op fr = o /\ f_prog fr = RClo k /\
                     nth_error (rhist r) id1 = Some (NInv id1 t d o) /\ S d < length (stack t (rrun r)).
  Proof. intros X. exact (g_both_open E r id2 id1 o (execution_gexec r X)). Qed.
  Lemma outer_silent r id2 id1 o k e : rexecution E ro nl l0 c0 m0 r -> inside (rhist r) id2 id1 o -> id2 < k ->
    rdone (firstn k (rhist r)) id2 = false -> nth_error (rhist r) k = Some e -> caller e <> Some id1.
  Proof. intros X. exact (g_outer_silent E r id2 id1 o k e (execution_gexec r X)). Qed.
  Lemma outer_open r id2 id1 o : rexecution E ro nl l0 c0 m0 r -> inside (rhist r) id2 id1 o -> rdone (rhist r) id2 = false -> rdone (rhist r) id1 = false.
  Proof. intros X. exact (g_outer_open E r id2 id1 o (execution_gexec r X)). Qed.
  Lemma outer_values r id2 id1 o : rexecution E ro nl l0 c0 m0 r -> inside (rhist r) id2 id1 o -> rdone (rhist r) id2 = false ->
    values_read (rhist r) id1 = values_read (firstn id2 (rhist r)) id1.
  Proof. intros X. exact (g_outer_values E r id2 id1 o (execution_gexec r X)). Qed.

  (** The call around an open call that was lent element [i] has a reference to its value. *)
  Lemma lent_held r id i w : rexecution E ro nl l0 c0 m0 r -> has_lent (rhist r) id i -> rdone (rhist r) id = false -> consistent w (answers r) ->
    exists c t d x, execution E ro nl l0 c0 m0 c /\ sim w r c /\ S d < length (stack t (rrun r)) /\ lookup (agent t d) (run c) = Some x /\
      ((exists k, c_prog x = Act (RdEnd i) k) \/ exists f k, c_prog x = Act (WrEnd i f) k).
  Proof.
    intros X (id1 & o & Ins & Le) D Cw. destruct (simulation _ _ _ _ _ _ _ X) as [R Sm]. destruct (Sm w Cw) as (c & Xc & S). destruct (nest_of _ X) as [_ N].
    pose proof (outer_open _ _ _ _ X Ins D) as D1. destruct (both_open _ _ _ _ X Ins D D1) as (t & d & fr & k & F & Fi & Fo & Fp & I1 & Ls).
    pose proof (sm_run _ _ _ S t d) as M. rewrite F in M. destruct (lookup (agent t d) (run c)) as [x|] eqn:Lk; [|contradiction].
    destruct M as (_ & _ & A). rewrite Fp in A. apply agr_inv in A. pose proof (ne_clo _ N _ _ _ F) as C. rewrite Fp, Fi, Fo, (outer_values _ _ _ _ X Ins D) in C.
    destruct C as [C _]. specialize (C i Le). set (a := dropw _ _ 0) in A. specialize (C a). destruct (k a) as [| |b k'| |]; try contradiction.
    apply agr_inv in A as (k'' & A & _). exists c, t, d, x. split; [assumption|]. split; [assumption|]. split; [assumption|]. split; [assumption|].
    destruct b; try contradiction; simpl in C; subst; eauto.
  Qed.
  (** Its value is there. *)
  Lemma lent_value r id i w : rexecution E ro nl l0 c0 m0 r -> has_lent (rhist r) id i -> rdone (rhist r) id = false -> consistent w (answers r) ->
    exists v, value (replay (abs0 l0 m0) (map (flat_event w) (rhist r))) i = Some v.
  Proof.
    intros X Hl D Cw. destruct (lent_held _ _ _ _ X Hl D Cw) as (c & t & d & x & Xc & S & _ & Lk & P). rewrite <- (sm_hist _ _ _ S).
    assert (K : forall a l y s' k, exec E (agent t d) a (sh c) = Done y s' [l] -> c_prog x = Act a k -> legal (replay (abs0 l0 m0) (hist c)) (EAcc (c_id x) (agent t d) l)).
    { intros a l y s' k Ex Hp. assert (St : step E c (LStep (agent t d)) = Next (after (agent t d) c x (k y) s' [l])).
      { simpl. unfold step_thread. rewrite Lk, Hp, Ex. reflexivity. }
      assert (X' : execution E ro nl l0 c0 m0 (after (agent t d) c x (k y) s' [l])).
      { destruct Xc as (A1 & A2 & A3 & A4 & A5). repeat (split; [assumption|]). econstructor; [exact A5| |exact St]. exact Logic.I. }
      destruct (execution_expl _ _ _ _ _ _ _ X') as (snap & Ex' & _). pose proof (x_ev _ _ _ _ _ _ _ Ex' (hist c) _ [] eq_refl) as (_ & _ & _ & Lg & _). exact Lg. }
    assert (NF : forall f, step E c (LStep (agent t d)) <> Fault f) by (intros f; eapply execution_no_fault; eauto; exact Logic.I).
    simpl in NF. unfold step_thread in NF. rewrite Lk in NF.
    destruct P as [(k & P)|(f & k & P)]; rewrite P in NF.
    - destruct (exec E (agent t d) (RdEnd i) (sh c)) as [y s' l|f] eqn:Ex; [|exfalso; eapply NF; reflexivity].
      assert (Hl' : exists v, l = [AcRead i v]).
      { clear - Ex. simpl in Ex. unfold with_slot in Ex. repeat (match type of Ex with context [match ?e with _ => _ end] => destruct e end; try discriminate). injection Ex as <- <- <-. eauto. }
      destruct Hl' as (v & ->). specialize (K _ _ _ _ _ Ex P). exists v. unfold value. simpl in K. now rewrite K.
    - destruct (exec E (agent t d) (WrEnd i f) (sh c)) as [y s' l|g] eqn:Ex; [|exfalso; eapply NF; reflexivity].
      assert (Hl' : exists v v', l = [AcWrite i v v']).
      { clear - Ex. simpl in Ex. unfold with_slot in Ex. repeat (match type of Ex with context [match ?e with _ => _ end] => destruct e end; try discriminate). injection Ex as <- <- <-. eauto. }
      destruct Hl' as (v & v' & ->). specialize (K _ _ _ _ _ Ex P). exists v. unfold value. simpl in K. now rewrite K.
  Qed.
End Prefix.

(** ** Nobody else accesses an element that was lent *)
Section Lent.
  Context {V : Type} (E : env V) (nl : bool) (l0 : list V) (c0 m0 : nat).
  Implicit Types (r : rcfg V).

  Lemma lent_firstn h id i k : id < k -> has_lent (V := V) h id i -> has_lent (firstn k h) id i.
  Proof.
    intros L (id1 & o & Ins & Le). exists id1, o. split; [now apply inside_firstn|]. now rewrite firstn_firstn, Nat.min_l by lia.
  Qed.
  Lemma lent_step r l r' j t d x id i : rexecution E false nl l0 c0 m0 r -> has_lent (rhist r) id i -> rdone (rhist r) id = false ->
    rstep E r l = RNext r' -> rhist r' = rhist r ++ [NAcc j t d x] -> ~ on_elem i x.
  Proof.
    intros X Hl D S Hh On. destruct (lent_held E false nl l0 c0 m0 _ _ _ _ X Hl D (consistent_self _)) as (c & t1 & d1 & x1 & Xc & Sm & Ls & Lk & P).
    destruct (execution_borrows E nl l0 c0 m0 false c Xc) as (B & Br). destruct (execution_world _ _ _ _ _ _ c Xc) as (snap & g & W).
    assert (B1 : borrowed (agent t1 d1) i (sh c)).
    { apply (br_slot _ _ Br). pose proof (br_prog _ _ Br _ _ Lk) as K. destruct P as [(k & P)|(f & k & P)]; rewrite P in K; apply K. }
    destruct (rstep_move E _ _ _ S) as [|t' o' U|t' fr rest a y s lg p St Ex Pr|t' id' o' k rest a St|t' fr rest e' g' St Pr|s e' g' Q O']; cbn [rhist] in Hh.
    - apply (f_equal (@length _)) in Hh. rewrite app_length in Hh. simpl in Hh. lia.
    - apply app_inj_tail in Hh as [_ Hh]. discriminate.
    - unfold rafter in Hh. cbn [rhist] in Hh. apply app_inv_head in Hh. destruct lg as [|z lg]; [discriminate|]. injection Hh as <- <- <- -> _.
      pose proof (sm_run _ _ _ Sm t' (length rest)) as M. rewrite St, top_frame in M. destruct (lookup (agent t' (length rest)) (run c)) as [x'|] eqn:Lk'; [|contradiction].
      destruct M as (_ & _ & A). pose proof (br_prog _ _ Br _ _ Lk') as K.
      assert (Bk : bok (B (agent t' (length rest))) a).
      { destruct Pr as [(k & Pr & _)|(ag & k & Pr & _)]; rewrite Pr in A; apply agr_inv in A as (k' & A & _); rewrite A in K; apply K. }
      assert (B2 : borrowed (agent t' (length rest)) i (sh c)) by (apply (br_slot _ _ Br); eapply (value_acc E); eauto; now left).
      destruct (agent_inj _ _ _ _ (borrow_unique _ _ _ _ _ _ _ _ _ _ W B1 B2)) as [-> ->]. rewrite St in Ls. simpl in Ls. lia.
    - apply (f_equal (@length _)) in Hh. rewrite app_length in Hh. simpl in Hh. lia.
    - apply app_inj_tail in Hh as [_ Hh]. destruct Pr as [(z & -> & _)|(m & -> & _)]; discriminate.
    - apply app_inj_tail in Hh as [_ Hh]. subst e'. discriminate.
  Qed.
  Theorem lent_exclusive r id i k j t d x : rexecution E false nl l0 c0 m0 r -> has_lent (rhist r) id i -> id < k ->
    rdone (firstn k (rhist r)) id = false -> nth_error (rhist r) k = Some (NAcc j t d x) -> ~ on_elem i x.
  Proof.
    intros X Hl L D He. destruct (prefix _ _ _ _ _ _ _ _ _ X He) as (r1 & l & r2 & X1 & S & H1 & H2 & _). rewrite <- H1 in D.
    eapply lent_step; eauto. rewrite H1. now apply lent_firstn.
  Qed.
End Lent.

(** ** Calls without closures *)
Section Plain.
  Context {V : Type} (E : env V) (ro nl : bool) (l0 : list V) (c0 m0 : nat).
  Implicit Types (r : rcfg V).

  Fixpoint noclo {R} (p : rprog V R) : Prop :=
    match p with
    | RRet _ | RPan _ => True
    | RAct _ k | RSpin _ _ k => forall x, noclo (k x)
    | RClo _ => False
    end.
  Lemma noclo_lift {R} (p : prog V R) : noclo (lift p).
  Proof. induction p; simpl; auto. Qed.
  Definition plain r : Prop := forall t d fr o, frame_at (stack t (rrun r)) d = Some fr -> f_op fr = RPlain o -> noclo (f_prog fr).
  Lemma plain_move r r' : plain r -> move E r r' -> plain r'.
  Proof.
    intros N M. destruct M as [|t o U|t fr rest a y s lg p St X P|t id o k rest a St|t fr rest e g St P|s e g Q O]; [assumption| | | | |].
    - intros t' d fr o'. cbn [rrun]. rewrite stack_put. destruct (Nat.eqb_spec t' t) as [->|]; [|apply N]. rewrite frame_push. destruct (d =? _); [|apply N].
      intros [= <-]. simpl. intros ->. simpl. apply noclo_lift.
    - intros t' d f' o'. unfold rafter. cbn [rrun]. rewrite stack_put. destruct (Nat.eqb_spec t' t) as [->|]; [|apply N]. rewrite frame_push.
      pose proof (N t (length rest) fr o') as K. rewrite St, top_frame in K. specialize (K eq_refl).
      destruct (Nat.eqb_spec d (length rest)).
      + intros [= <-]. simpl. intros Ho. specialize (K Ho). destruct P as [(k & P & ->)|(ag & k & P & _ & ->)]; rewrite P in K; apply K.
      + intros H. apply (N t d). now rewrite St, frame_under.
    - intros t' d f' o'. cbn [rrun]. rewrite stack_put. destruct (Nat.eqb_spec t' t) as [->|]; [|apply N]. rewrite frame_push.
      pose proof (N t (length rest) (Frame id o (RClo k)) o') as K. rewrite St, top_frame in K. specialize (K eq_refl).
      destruct (Nat.eqb_spec d (length rest)).
      + intros [= <-]. simpl. intros Ho. destruct (K Ho).
      + intros H. apply (N t d). now rewrite St, frame_under.
    - intros t' d f' o'. cbn [rrun]. rewrite stack_put. intros H. apply (N t' d). destruct (Nat.eqb_spec t' t) as [->|]; [|assumption].
      rewrite St. rewrite frame_under; [assumption|]. apply frame_len in H. lia.
    - intros t d fr o'. cbn [rrun stack]. unfold frame_at. destruct d; discriminate.
  Qed.
  Lemma plain_of r : rexecution E ro nl l0 c0 m0 r -> plain r.
  Proof.
    intros (EO & CO & Le & Lt & Re). induction Re as [|r l r' Re IH P St].
    - intros t d fr o'. cbn [rstart rrun stack]. unfold frame_at. destruct d; discriminate.
    - eapply plain_move; [exact IH|]. eapply rstep_move; eauto.
  Qed.
  (** ... are always the innermost ones. *)
  Lemma plain_top r id t d o : rexecution E ro nl l0 c0 m0 r -> ropen (rhist r) id t d (RPlain o) -> length (stack t (rrun r)) = S d.
  Proof.
    intros X O. destruct (nest_of _ _ _ _ _ _ _ X) as [_ N]. destruct (ne_frame _ N _ _ _ _ O) as (fr & F & _ & Ho). pose proof (frame_len _ _ _ F).
    destruct (Nat.eq_dec (length (stack t (rrun r))) (S d)); [assumption|]. destruct (ne_susp _ N _ _ _ F) as (k & P); [lia|].
    pose proof (plain_of _ X _ _ _ _ F Ho) as K. rewrite P in K. destruct K.
  Qed.

  Lemma rpath_trans r ls r' : rexecution E ro nl l0 c0 m0 r -> rpath E (rclient E ro nl (length l0)) r ls r' ->
    rexecution E ro nl l0 c0 m0 r' /\ (exists h, rhist r' = rhist r ++ h) /\ exists x, answers r' = answers r ++ x.
  Proof.
    intros X H. apply rexecution_trans; [assumption|]. clear X.
    assert (K : forall q, rreach E (rclient E ro nl (length l0)) q r -> rreach E (rclient E ro nl (length l0)) q r'); [|apply K; constructor].
    revert r H. induction ls as [|l ls IH]; intros r H q Q; simpl in H; [now subst|]. destruct H as (C & d & S & H). apply (IH d H). econstructor; eauto.
  Qed.
  Lemma rpath_flat ls : forall r r' w c id t d o, rexecution E ro nl l0 c0 m0 r -> rpath E (rclient E ro nl (length l0)) r ls r' ->
    consistent w (answers r') -> sim w r c -> nth_error (rhist r) id = Some (NInv id t d (RPlain o)) -> rdone (rhist r') id = false ->
    exists ls' c', path E (client E ro nl (length l0)) c ls' c' /\ sim w r' c' /\ steps_of (agent t d) ls' = rsteps_of t ls.
  Proof.
    induction ls as [|l ls IH]; intros r r' w c id t d o X H Cw Sm Hi D; simpl in H.
    - subst. exists [], c. split; [reflexivity|]. auto.
    - destruct H as (C & q & S & H). pose proof (rexecution_step _ _ _ _ _ _ _ _ _ X C S) as Xq.
      destruct (rpath_trans _ _ _ Xq H) as (X' & (h & Hh) & x & A). destruct (nest_of _ _ _ _ _ _ _ X) as [R _].
      assert (Cq : consistent w (answers q)) by (rewrite A in Cw; now apply consistent_app in Cw).
      assert (Hq : nth_error (rhist q) id = Some (NInv id t d (RPlain o))) by (destruct (hist_grows _ _ _ _ S) as [->|(e & ->)]; [assumption|now apply nth_old]).
      assert (D1 : rdone (rhist r) id = false).
      { rewrite Hh in D. unfold rdone in *. rewrite existsb_app in D. apply orb_false_elim in D as [D _].
        destruct (hist_grows _ _ _ _ S) as [Q|(e & Q)]; rewrite Q in D; [assumption|]. rewrite existsb_app in D. now apply orb_false_elim in D. }
      pose proof (plain_top _ _ _ _ _ X (conj Hi D1)) as Top.
      pose proof (sim_step _ _ _ _ _ _ R Sm Cq S) as St. pose proof (sim_client _ _ _ _ _ _ _ _ R Sm C) as Cl.
      assert (Same : match flat_label w r l with Some (LStep u) => (u =? agent t d) | _ => false end = match l with NLStep u => u =? t | _ => false end).
      { destruct l as [u o'|u|u a| |n]; cbn [flat_label]; try reflexivity. destruct (Nat.eqb_spec u t) as [->|Nu].
        - destruct (stack t (rrun r)); [discriminate|]. simpl in Top |- *. injection Top as <-. apply Nat.eqb_refl.
        - apply Nat.eqb_neq. intros e. apply agent_inj in e as [e _]. contradiction. }
      destruct (flat_label w r l) as [l'|] eqn:Fl.
      + destruct St as (c1 & St & Sm1). destruct (IH q r' w c1 id t d o Xq H Cw Sm1 Hq D) as (ls' & c' & P & Sm' & Q).
        exists (l' :: ls'), c'. split; [simpl; eauto|]. split; [assumption|]. unfold steps_of, rsteps_of in *. cbn [filter].
        destruct l' as [|u| |]; rewrite <- Same; try exact Q. destruct (u =? agent t d); simpl; [f_equal|]; exact Q.
      + destruct (IH q r' w c id t d o Xq H Cw St Hq D) as (ls' & c' & P & Sm' & Q). exists ls', c'. split; [assumption|]. split; [assumption|].
        unfold steps_of, rsteps_of in *. cbn [filter]. now rewrite <- Same.
  Qed.
End Plain.
