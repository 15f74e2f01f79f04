(** * What suspended calls have, and what the calls made by their closures wait for. *)

From Coq Require Import List Arith Bool Lia.
From Verif.Model Require Import Prog Mem Deps State Elem Vec Excl Machine Reentrant.
From Verif Require Import Client Spec Nested.
From Verif.Logic Require Import Inv WP Post Specs Ops Sound Shape Clients Hist Locks Facts Trace Progress Gaps Borrows Reentry Nesting.
Import ListNotations.
Local Open Scope prog_scope.

(** ** The accesses of a call *)
Section Accs.
  Context {V : Type}.
  Implicit Types (h : list (revent V)) (lg : list (acc V)).
  Lemma raccs_app h h' id : raccs (h ++ h') id = raccs h id ++ raccs h' id.
  Proof. apply flat_map_app. Qed.
  Lemma raccs_own id t d lg : raccs (map (NAcc id t d) lg) id = lg.
  Proof. induction lg as [|a lg IH]; [reflexivity|]. unfold raccs in *. cbn [map flat_map]. now rewrite Nat.eqb_refl, IH. Qed.
  Lemma raccs_fresh h id : (forall e, In e h -> caller e <> Some id) -> raccs h id = [].
  Proof.
    induction h as [|e h IH]; intros H; [reflexivity|]. unfold raccs in *. cbn [flat_map]. rewrite IH by (intros; apply H; now right).
    specialize (H e (or_introl eq_refl)). destruct e; try reflexivity. simpl in *. destruct (Nat.eqb_spec id0 id); [congruence|reflexivity].
  Qed.
  Lemma raccs_other h id j t d lg : id <> j -> raccs (h ++ map (NAcc j t d) lg) id = raccs h id.
  Proof.
    intros N. rewrite raccs_app, (raccs_fresh (map _ lg)); [apply app_nil_r|]. intros e I. apply in_map_iff in I as (x & <- & _). simpl. congruence.
  Qed.
  Lemma raccs_snoc h id e : (forall j t d x, e <> NAcc j t d x) -> raccs (h ++ [e]) id = raccs h id.
  Proof. intros N. rewrite raccs_app. destruct e; simpl; try apply app_nil_r. exfalso. eapply N. reflexivity. Qed.
  Lemma raccs_in h id a : In a (raccs h id) <-> exists t d, In (NAcc id t d a) h.
  Proof.
    unfold raccs. rewrite in_flat_map. split.
    - intros (e & I & J). destruct e; try contradiction. destruct (Nat.eqb_spec id0 id) as [->|]; [|contradiction]. destruct J as [->|[]]. eauto.
    - intros (t & d & I). exists (NAcc id t d a). split; [assumption|]. rewrite Nat.eqb_refl. now left.
  Qed.
  Lemma raccs_flat w h id : accs id (map (flat_event w) h) = raccs h id.
  Proof.
    induction h as [|e h IH]; [reflexivity|]. unfold accs, raccs in *. cbn [map flat_map]. rewrite IH. destruct e; try reflexivity.
  Qed.
  Definition reads_in (l : list (acc V)) : nat := length (flat_map (fun a => match a with AcRead _ v => [v] | _ => [] end) l).
  Lemma reads_values h id : reads_in (raccs h id) = length (values_read h id).
  Proof.
    unfold reads_in. induction h as [|e h IH]; [reflexivity|]. unfold raccs, values_read in *. cbn [flat_map]. rewrite flat_map_app, !app_length, IH. f_equal.
    destruct e as [| | |j t d a| |]; try reflexivity. destruct a; destruct (j =? id); reflexivity.
  Qed.
End Accs.

(** ** Invariants of frames *)
Section Frames.
  Context {V : Type} (E : env V) (ro nl : bool) (l0 : list V) (c0 m0 : nat).
  (** state, accesses so far, operation, program *)
  Context (P : shared V -> list (acc V) -> rop V -> rprog V (ret V) -> Prop).
  Hypothesis P_start : forall s o, P s [] o (rop_prog E o).
  Hypothesis P_act : forall s tr o a k u y s' lg, P s tr o (RAct a k) -> exec E u a s = Done y s' lg -> WP.fits E a s -> env_ok E -> capok E (cap s) (maxc s) -> P s' (tr ++ lg) o (k y).
  Hypothesis P_spin : forall s tr o a g k u y s' lg, P s tr o (RSpin a g k) -> exec E u a s = Done y s' lg -> g y = false -> env_ok E -> capok E (cap s) (maxc s) -> P s' (tr ++ lg) o (k y).
  Hypothesis P_ans : forall s tr o k a, P s tr o (RClo k) -> P s tr o (k a).
  Hypothesis P_env : forall s tr o p s', P s tr o p -> cap s <= cap s' -> P s' tr o p.
  Implicit Types (r : rcfg V).

  Lemma exec_cap_le t (a : act V) s y s' l : env_ok E -> capok E (cap s) (maxc s) -> exec E t a s = Done y s' l -> cap s <= cap s'.
  Proof.
    intros EO CO. destruct a; simpl; unfold with_slot; intros H;
      repeat match goal with
             | H : context [if ?b then _ else _] |- _ => let Q := fresh "Q" in destruct b eqn:Q
             | H : context [match ?b with _ => _ end] |- _ => let Q := fresh "Q" in destruct b eqn:Q
             end; try discriminate; injection H as <- <- <-; simpl; auto.
    match goal with Q : policy _ _ _ _ = Some _ |- _ => apply (ok_pol' _ EO _ _ _ _ CO Q) end.
  Qed.
  Definition framed r : Prop := forall t d fr, frame_at (stack t (rrun r)) d = Some fr -> P (rsh r) (raccs (rhist r) (f_id fr)) (f_op fr) (f_prog fr).
  Theorem frames r : rexecution E ro nl l0 c0 m0 r -> framed r.
  Proof.
    intros X. destruct X as (EO & CO & Le & Lt & Re). induction Re as [|r l r' Re IH C S].
    - intros t d fr. cbn [rstart rrun stack]. unfold frame_at. destruct d; discriminate.
    - assert (X : rexecution E ro nl l0 c0 m0 r) by (repeat (split; [assumption|]); exact Re).
      destruct (nest_of _ _ _ _ _ _ _ X) as [R N]. destruct (simulation _ _ _ _ _ _ _ X) as [_ Sm]. destruct (Sm _ (consistent_self _)) as (c & Xc & Si). clear Sm.
      destruct (execution_world _ _ _ _ _ _ c Xc) as (snap & g & W). pose proof (w_gi _ _ _ _ _ _ _ _ W) as G.
      pose proof (i_cap _ _ _ _ (gi_inv _ _ _ _ _ _ _ _ G)) as Ck. rewrite (sm_sh _ _ _ Si) in Ck.
      pose proof (rstep_move E _ _ _ S) as M.
      destruct M as [|t o U|t fr rest a y s lg p St Ex Pr|t id o k rest a St|t fr rest e g' St Pr|s e g' Q O]; [assumption| | | | |].
      + intros t' d fr. cbn [rrun rsh rhist]. rewrite stack_put, raccs_snoc by discriminate. intros F.
        destruct (Nat.eqb_spec t' t) as [->|]; [|now apply (IH t' d)]. rewrite frame_push in F. destruct (d =? _); [|now apply (IH t d)].
        injection F as <-. cbn [f_id f_op f_prog]. rewrite raccs_fresh; [apply P_start|]. intros e I Ce. pose proof (ne_own _ N _ _ I Ce). lia.
      + assert (Fr : frame_at (stack t (rrun r)) (length rest) = Some fr) by (rewrite St; apply top_frame).
        assert (Ce : cap (rsh r) <= cap s) by (eapply exec_cap_le; eauto).
        intros t' d f'. unfold rafter. cbn [rrun rsh rhist]. rewrite stack_put. intros F.
        destruct (Nat.eq_dec t' t) as [->|Nt]; [destruct (Nat.eq_dec d (length rest)) as [->|Nd]|].
        * rewrite Nat.eqb_refl, top_frame in F. injection F as <-. cbn [f_id f_op f_prog]. rewrite raccs_app, raccs_own.
          pose proof (IH _ _ _ Fr) as K. destruct Pr as [(k & Pr & ->)|(ag & k & Pr & Ag & ->)]; rewrite Pr in K.
          -- eapply P_act; eauto.
             pose proof (sm_run _ _ _ Si t (length rest)) as Mt. rewrite Fr in Mt. destruct (lookup (agent t (length rest)) (run c)) as [x|] eqn:Lk; [|contradiction].
             destruct Mt as (_ & _ & A). rewrite Pr in A. apply agr_inv in A as (k' & A & _).
             pose proof (client_disciplined E ro nl l0 m0 c snap g (LStep (agent t (length rest))) G (w_b _ _ _ _ _ _ _ _ W) Logic.I ltac:(right; discriminate)) as D.
             simpl in D. unfold no_wrap in D. rewrite (sm_sh _ _ _ Si) in D. destruct a; try exact Logic.I. simpl. eapply D; eauto.
          -- eapply P_spin; eauto.
        * rewrite Nat.eqb_refl in F. rewrite frame_under in F by assumption.
          assert (K : frame_at (stack t (rrun r)) d = Some f') by (rewrite St, frame_under; assumption).
          rewrite raccs_other. 2:{ intros e. destruct (ids_differ _ _ _ _ _ _ _ R K Fr e). contradiction. }
          eapply P_env; [|exact Ce]. now apply (IH t d).
        * destruct (Nat.eqb_spec t' t); [contradiction|]. rewrite raccs_other. 2:{ intros e. destruct (ids_differ _ _ _ _ _ _ _ R F Fr e). contradiction. }
          eapply P_env; [|exact Ce]. now apply (IH t' d).
      + intros t' d f'. cbn [rrun rsh rhist]. rewrite stack_put. intros F. destruct (Nat.eqb_spec t' t) as [->|]; [|now apply (IH t' d)].
        rewrite frame_push in F. destruct (Nat.eqb_spec d (length rest)) as [->|].
        * injection F as <-. cbn [f_id f_op f_prog]. apply P_ans. apply (IH t (length rest) (Frame id o (RClo k))). rewrite St. apply top_frame.
        * apply (IH t d). rewrite St, frame_under; assumption.
      + intros t' d f'. cbn [rrun rsh rhist]. rewrite stack_put. rewrite raccs_snoc by (destruct Pr as [(x & -> & _)|(m & -> & _)]; discriminate).
        intros F. destruct (Nat.eqb_spec t' t) as [->|]; [|now apply (IH t' d)]. apply (IH t d). rewrite St, frame_under; [assumption|]. apply frame_len in F. lia.
      + intros t d fr. cbn [rrun stack]. unfold frame_at. destruct d; discriminate.
  Qed.
End Frames.

(** ** Elements held while a closure runs *)
Section Tidy.
  Context {V : Type} (E : env V).

  Definition light {R} (L : R -> Prop) (p : rprog V R) : Prop :=
    match p with RRet r => L r | RPan _ | RSpin _ _ _ => True | RAct _ _ | RClo _ => False end.
  Definition drops {R} (L : R -> Prop) (i : nat) (p : rprog V R) : Prop :=
    match p with RAct (StoreSt j SOME) k => j = i /\ forall x, light L (k x) | _ => False end.
  (** what follows a closure that was lent element [o] *)
  Definition rest_ok {R} (L : R -> Prop) (o : option nat) (p : rprog V R) : Prop :=
    match o with
    | None => light L p
    | Some i => match p with RAct (RdEnd j) k | RAct (WrEnd j _) k => j = i /\ forall x, drops L i (k x) | _ => False end
    end.
  Fixpoint tidy {R} (f : nat -> option nat) (L : R -> Prop) (Q : R -> nat -> Prop) (n : nat) (p : rprog V R) : Prop :=
    match p with
    | RRet r => Q r n
    | RPan _ => True
    | RAct a k | RSpin a _ k => forall x, tidy f L Q (after_read a n) (k x)
    | RClo k => forall a, rest_ok L (f n) (k a) /\ tidy f L Q n (k a)
    end.
  Lemma light_bind {A B} (L : A -> Prop) (L' : B -> Prop) (p : rprog V A) k : light L p -> (forall x, L x -> light L' (k x)) -> light L' (rbind p k).
  Proof. destruct p; simpl; auto. Qed.
  Lemma drops_bind {A B} (L : A -> Prop) (L' : B -> Prop) i (p : rprog V A) k : drops L i p -> (forall x, L x -> light L' (k x)) -> drops L' i (rbind p k).
  Proof.
    intros H F. destruct p as [| |a c| |]; simpl in *; try contradiction. destruct a; try contradiction. destruct s; try contradiction.
    destruct H as [H1 H2]. split; [assumption|]. intros x. eapply light_bind; eauto.
  Qed.
  Lemma rest_bind {A B} (L : A -> Prop) (L' : B -> Prop) o (p : rprog V A) k : rest_ok L o p -> (forall x, L x -> light L' (k x)) -> rest_ok L' o (rbind p k).
  Proof.
    intros H F. destruct o as [i|]; [|eapply light_bind; eauto]. destruct p as [| |a c| |]; simpl in *; try contradiction.
    destruct a; try contradiction; (destruct H as [H1 H2]; split; [assumption|]; intros x; eapply drops_bind; eauto).
  Qed.
  Lemma tidy_bind {A B} f (L : A -> Prop) (L' : B -> Prop) (Q : A -> nat -> Prop) (Q' : B -> nat -> Prop) (p : rprog V A) (k : A -> rprog V B) : forall n,
    tidy f L Q n p -> (forall x, L x -> light L' (k x)) -> (forall x n, Q x n -> tidy f L' Q' n (k x)) -> tidy f L' Q' n (rbind p k).
  Proof.
    induction p as [r|m|a c IH|a g c IH|c IH]; intros n H F1 F2; simpl in *; auto. intros a. destruct (H a) as [H1 H2].
    split; [eapply rest_bind; eauto|auto].
  Qed.
  Lemma tidy_mono {A} f L (Q Q' : A -> nat -> Prop) (p : rprog V A) : (forall x n, Q x n -> Q' x n) -> forall n, tidy f L Q n p -> tidy f L Q' n p.
  Proof. intros H. induction p; simpl; auto. intros n H' a. destruct (H' a). auto. Qed.
  Lemma noread_tidy {R} f L (Q : R -> Prop) (p : prog V R) : noread Q p -> forall n, tidy f L (fun r m => Q r /\ m = n) n (lift p).
  Proof.
    induction p as [r|m|a k IH|a g k IH]; simpl; intros H n; auto; destruct H as [H1 H2]; intros x; specialize (IH x (H2 x) n);
      destruct a; simpl in *; auto; discriminate.
  Qed.
  Lemma tidy_lift {R} f L (p : prog V R) : forall n, tidy f L (fun _ _ => True) n (lift p).
  Proof. induction p; intros n; simpl; auto. Qed.
  Notation none := (fun _ => False).
  Notation all := (fun _ => True).

  Lemma tidy_elem_map {U} f i (g : option (ans V) -> option U) n : f n = Some i -> tidy f all (fun _ m => m = S n) n (r_elem_map i g).
  Proof.
    intros F. unfold r_elem_map, r_option_map. intros h. destruct (fst h); simpl; auto. intros _ a. rewrite F. split.
    - simpl. split; [reflexivity|]. intros _. split; [reflexivity|]. intros _. destruct (g a); simpl; auto.
    - simpl. intros _ _. destruct (g a); simpl; auto.
  Qed.
  Lemma light_elem_map {U A} (L : A -> Prop) i (g : option (ans V) -> option U) k : light L (rbind (r_elem_map i g) k).
  Proof. exact I. Qed.
  Lemma tidy_elem_update i : tidy (fun _ => Some i) all (fun _ _ => True) 0 (r_elem_update i).
  Proof.
    unfold r_elem_update, r_option_update. intros h. destruct (fst h); simpl; auto. intros _ a. split.
    - split; [reflexivity|]. intros v. split; [reflexivity|]. intros _. destruct (snd (to_write a v)); simpl; auto.
    - intros v _. destruct (snd (to_write a v)); simpl; auto.
  Qed.
  Lemma light_map l : light all (r_map_elems (V := V) l).
  Proof. destruct l; exact I. Qed.
  Lemma light_filter l : light all (r_filter_elems (V := V) l).
  Proof. destruct l; exact I. Qed.
  Lemma light_fold l (v : V) : light all (r_fold_elems l v).
  Proof. destruct l; exact I. Qed.
  Lemma tidy_map_elems a k : forall e, a <= e -> tidy (fun n => Some (a + n)) all (fun _ _ => True) (e - a) (r_map_elems (V := V) (seq e k)).
  Proof.
    induction k as [|k IH]; intros e L; cbn [seq r_map_elems]; [exact I|]. apply (tidy_bind _ all all (fun _ m => m = S (e - a))).
    - apply tidy_elem_map. f_equal. lia.
    - intros u _. apply (light_bind all); [apply light_map|]. intros; exact I.
    - intros u m ->. apply (tidy_bind _ all all (fun _ _ => True)); [|intros; exact I|intros; exact I].
      replace (S (e - a)) with (S e - a) by lia. apply IH. lia.
  Qed.
  Lemma tidy_filter_elems a k : forall e, a <= e -> tidy (fun n => Some (a + n)) all (fun _ _ => True) (e - a) (r_filter_elems (V := V) (seq e k)).
  Proof.
    induction k as [|k IH]; intros e L; cbn [seq r_filter_elems]; [exact I|]. apply (tidy_bind _ all all (fun _ m => m = S (e - a))).
    - apply tidy_elem_map. f_equal. lia.
    - intros u _. apply (light_bind all); [apply light_filter|]. intros; exact I.
    - intros u m ->. apply (tidy_bind _ all all (fun _ _ => True)); [|intros; exact I|intros; exact I].
      replace (S (e - a)) with (S e - a) by lia. apply IH. lia.
  Qed.
  Lemma tidy_fold_elems a k : forall e init, a <= e -> tidy (fun n => Some (a + n)) all (fun _ _ => True) (e - a) (r_fold_elems (V := V) (seq e k) init).
  Proof.
    induction k as [|k IH]; intros e init L; cbn [seq r_fold_elems]; [exact I|]. apply (tidy_bind _ all all (fun _ m => m = S (e - a))).
    - apply tidy_elem_map. f_equal. lia.
    - intros u _. apply light_fold.
    - intros u m ->. replace (S (e - a)) with (S e - a) by lia. apply IH. lia.
  Qed.
  Lemma tidy_fill_elems l : forall n, tidy (fun _ => None) all (fun _ _ => True) n (r_fill_elems (V := V) l).
  Proof.
    induction l as [|e l IH]; intros n; cbn [r_fill_elems]; [exact I|]. intros a. destruct (to_val a) as [v|]; cbn [chk lift rbind]; [|split; exact I].
    split; [exact I|]. apply (tidy_bind _ none all (fun _ _ => True)); [apply tidy_lift|contradiction|]. intros _ m _. apply IH.
  Qed.
  Lemma tidy_from {A} f (p : prog V (list nat)) a (q : list nat -> rprog V A) : noread (fun l => exists n, l = seq a n) p ->
    (forall k, tidy f all (fun _ _ => True) 0 (q (seq a k))) -> tidy f all (fun _ _ => True) 0 (rbind (lift p) q).
  Proof.
    intros H F. eapply (tidy_bind _ none); [apply noread_tidy, H|contradiction|]. intros l n [[k ->] ->]. apply F.
  Qed.
  Lemma tidy_cloned f i n : tidy f none (fun _ m => m = S n) n (lift (elem_cloned (V := V) i)).
  Proof. unfold elem_cloned, option_clone. cbn. intros h. destruct (fst h); cbn; auto. Qed.
  Lemma tidy_slice_reduce x : tidy (fun n => Some (sl_a x + n)) all (fun _ _ => True) 0 (r_slice_reduce (V := V) x).
  Proof.
    unfold r_slice_reduce. apply (tidy_from _ _ (sl_a x)); [apply noread_slice_iter|]. intros [|k]; cbn [seq]; [exact I|].
    apply (tidy_bind _ none all (fun _ m => m = 1)); [apply tidy_cloned|contradiction|]. intros v m ->.
    apply (tidy_bind _ all all (fun _ _ => True)); [|intros; exact I|intros; exact I].
    replace 1 with (S (sl_a x) - sl_a x) by lia. apply tidy_fold_elems. lia.
  Qed.
  Lemma tidy_rmap {A B} f (g : A -> B) (p : rprog V A) n : tidy f all (fun _ _ => True) n p -> tidy f all (fun _ _ => True) n (rmap g p).
  Proof. intros H. eapply tidy_bind; [exact H| |]; intros; exact I. Qed.
  Theorem tidy_op o : rgrows o = false -> tidy (lends o) all (fun _ _ => True) 0 (rop_prog E o).
  Proof.
    destruct o; intros H; try discriminate H; clear H; cbn [rop_prog lends]; try apply tidy_rmap.
    - apply tidy_lift.
    - eapply tidy_mono; [|apply tidy_elem_map]; auto.
    - apply tidy_elem_update.
    - apply (tidy_from _ _ 0); [apply noread_iter|]. intros k. apply (tidy_map_elems 0 k 0). lia.
    - apply (tidy_from _ _ 0); [apply noread_iter|]. intros k. apply (tidy_filter_elems 0 k 0). lia.
    - apply (tidy_from _ _ 0); [apply noread_iter|]. intros k. apply (tidy_fold_elems 0 k 0). lia.
    - eapply (tidy_bind _ none); [apply noread_tidy, noread_as_slice|contradiction|]. intros x n [H ->].
      pose proof (tidy_slice_reduce x) as C. rewrite H in C. exact C.
    - eapply (tidy_bind _ none); [apply tidy_lift|contradiction|]. intros l n _. apply tidy_fill_elems.
    - apply (tidy_from _ _ (sl_a x)); [apply noread_slice_iter|]. intros k.
      replace 0 with (sl_a x - sl_a x) by lia. apply tidy_map_elems. lia.
    - apply (tidy_from _ _ (sl_a x)); [apply noread_slice_iter|]. intros k.
      replace 0 with (sl_a x - sl_a x) by lia. apply tidy_filter_elems. lia.
    - apply (tidy_from _ _ (sl_a x)); [apply noread_slice_iter|]. intros k.
      replace 0 with (sl_a x - sl_a x) by lia. apply tidy_fold_elems. lia.
    - apply tidy_slice_reduce.
    - eapply (tidy_bind _ none); [apply tidy_lift|contradiction|]. intros l n _. apply tidy_fill_elems.
  Qed.
End Tidy.

(** ** Room for the positions of a call while it runs [next] *)
Section Room.
  Context {V : Type} (E : env V).

  Definition capof (kc : nat) (a : act V) : res a -> nat :=
    match a return res a -> nat with
    | LoadCap => fun c => Nat.max kc c
    | GrowEnd n => fun _ => Nat.max kc n
    | _ => fun _ => kc
    end.
  (** [kc]: a capacity the call has seen or made; [e]: where its positions end *)
  Fixpoint roomy {R} (n e : nat) (Q : R -> nat -> Prop) (kc : nat) (p : rprog V R) : Prop :=
    match p with
    | RRet r => Q r kc
    | RPan _ => True
    | RAct a k => forall x, roomy n e Q (capof kc a x) (k x)
    | RSpin a g k => forall x, g x = false -> roomy n e Q (capof kc a x) (k x)
    | RClo k => (n = 0 \/ e <= kc) /\ forall a, roomy n e Q kc (k a)
    end.
  Lemma roomy_bind {A B} n e (Q : A -> nat -> Prop) (Q' : B -> nat -> Prop) (p : rprog V A) (k : A -> rprog V B) : forall kc,
    roomy n e Q kc p -> (forall x kc, Q x kc -> roomy n e Q' kc (k x)) -> roomy n e Q' kc (rbind p k).
  Proof. induction p as [r|m|a c IH|a g c IH|c IH]; intros kc H F; simpl in *; auto. destruct H as [H1 H2]. split; auto. Qed.
  Lemma roomy_buffer b n kc : b + n < wmod E -> roomy n (b + n) (fun _ kc => n = 0 \/ b + n <= kc) kc (lift (n_items_buffer E b n)).
  Proof.
    intros W. unfold n_items_buffer. destruct (Nat.eqb_spec n 0) as [->|Nz]; [simpl; auto|].
    unfold uadd, usub. destruct (Nat.ltb_spec (b + n) (wmod E)); [|lia]. cbn [chk bind]. destruct (Nat.leb_spec 1 (b + n)); [|lia]. cbn [chk bind].
    cbn [core_maximum_capacity doo bind lift roomy]. intros m. cbn [capof]. destruct (Nat.ltb_spec (b + n - 1) m); [|exact I].
    cbn [lift roomy]. intros c Hs. unfold write_permit_n_items in *. cbn [capof].
    destruct (Nat.compare_spec (b + n - 1) c); [| |destruct (Nat.compare_spec b c)]; cbn [is_spin grow_to doo bind lift roomy] in *; try (destruct (Nat.compare_spec b c)); cbn [is_spin] in Hs; try discriminate.
    all: cbn [grow_to doo bind lift roomy capof]; try lia.
    all: intros x; destruct (x : bool); cbn [doo lift roomy capof]; [intros _; lia|exact I].
  Qed.
  Lemma roomy_lift {R} n e (p : prog V R) : forall kc kc0, kc0 <= kc -> roomy n e (fun _ kc => kc0 <= kc) kc (lift p).
  Proof.
    induction p as [r|m|a k IH|a g k IH]; intros kc kc0 L; simpl; auto; intros; (apply IH; destruct a; simpl; lia).
  Qed.
  Lemma roomy_keep {R} n e (p : prog V R) kc : n = 0 \/ e <= kc -> roomy n e (fun _ kc => n = 0 \/ e <= kc) kc (lift p).
  Proof.
    revert kc. induction p as [r|m|a k IH|a g k IH]; intros kc L; simpl; auto; intros; (apply IH; destruct a; simpl; lia).
  Qed.
  Lemma roomy_write n e : forall k i kc, n = 0 \/ e <= kc -> roomy n e (fun _ _ => True) kc (r_write_items (V := V) i k).
  Proof.
    induction k as [|k IH]; intros i kc L; cbn [r_write_items]; [exact I|]. split; [assumption|].
    intros [[v| | | |]|]; try exact I. eapply roomy_bind; [apply roomy_keep; exact L|]. intros u kc' L'. now apply IH.
  Qed.
  Lemma roomy_op o : match o with RExtend _ | RExtendFor _ | RExtendN _ => True | _ => False end ->
    exists k, rop_prog E o = RAct (AddResv (asks o) Relaxed) k /\ forall b kc, b + asks o < wmod E -> roomy (asks o) (b + asks o) (fun _ _ => True) kc (k b).
  Proof.
    destruct o; try contradiction; intros _; (eexists; split; [reflexivity|]); intros b kc W; cbn [asks with_answers request lift rbind] in *.
    all: eapply roomy_bind; [|intros; exact I]; eapply roomy_bind; [apply roomy_buffer; exact W|]; intros u kc' L.
    - eapply roomy_bind; [apply roomy_write; exact L|]. intros; exact I.
    - split; [assumption|]. intros [[| | |m|]|]; try exact I. destruct (m =? n); [|exact I]. eapply roomy_bind; [apply roomy_write; exact L|]. intros; exact I.
    - eapply roomy_bind; [apply roomy_write; exact L|]. intros; exact I.
  Qed.
End Room.

(** ** Where a suspended call is *)
Section Suspended.
  Context {V : Type} (E : env V) (ro nl : bool) (l0 : list V) (c0 m0 : nat).
  Implicit Types (r : rcfg V).

  Definition phase (s : shared V) (tr : list (acc V)) (o : rop V) (p : rprog V (ret V)) : Prop :=
    match o with
    | RPushFor => p = rop_prog E RPushFor /\ tr = [] \/ (exists b k, tr = [AcAdd b 1] /\ p = RClo k /\ forall a, noclo (k a)) \/ noclo p
    | RExtend _ | RExtendFor _ | RExtendN _ =>
        p = rop_prog E o \/ exists b kc, In (AcAdd b (asks o)) tr /\ kc <= cap s /\ roomy (asks o) (b + asks o) (fun _ _ => True) kc p
    | RPlain _ => noclo p
    | _ => tidy (lends o) (fun _ => True) (fun _ _ => True) (reads_in tr) p
    end.
  Lemma reads_in_app (l l' : list (acc V)) : reads_in (l ++ l') = reads_in l + reads_in l'.
  Proof. unfold reads_in. now rewrite flat_map_app, app_length. Qed.
  Lemma exec_reads_in t (a : act V) s y s' lg : exec E t a s = Done y s' lg -> reads_in lg = after_read a 0.
  Proof.
    intros X. destruct a; simpl in X; unfold with_slot in X; cbn [after_read].
    all: repeat (match type of X with context [match ?e with _ => _ end] => destruct e end; try discriminate).
    all: injection X as <- <- <-; try reflexivity.
  Qed.
  Lemma exec_capof t (a : act V) s y s' lg kc : env_ok E -> capok E (cap s) (maxc s) -> exec E t a s = Done y s' lg -> kc <= cap s -> capof kc a y <= cap s'.
  Proof.
    intros EO CO X L. pose proof (exec_cap_le E t a s y s' lg EO CO X) as Lc. destruct a; simpl in X |- *; try lia.
    - injection X as <- <- <-. lia.
    - destruct (is_tid _ _); [|discriminate]. destruct (policy _ _ _ _) eqn:Q; [|discriminate]. injection X as <- <- <-. simpl in *.
      destruct (ok_pol' _ EO _ _ _ _ CO Q) as (Q1 & _). lia.
  Qed.
  Definition added {R} (p : rprog V R) : option (nat * (nat -> rprog V R)) :=
    match p with
    | RAct a k => match a return (res a -> rprog V R) -> option (nat * (nat -> rprog V R)) with AddResv n _ => fun k => Some (n, k) | _ => fun _ => None end k
    | _ => None
    end.
  Lemma add_inv {R} (a : act V) (k : res a -> rprog V R) n o k' u s y s' lg : RAct a k = RAct (AddResv n o) k' -> exec E u a s = Done y s' lg -> WP.fits E a s ->
    lg = [AcAdd (resv s) n] /\ resv s + n < wmod E /\ k y = k' (resv s).
  Proof.
    intros H X F. apply (f_equal added) in H. destruct a; try discriminate H. cbn in H. injection H as -> ->. simpl in X. injection X as <- <- <-. auto.
  Qed.
  Lemma noclo_bind {A B} (p : rprog V A) (k : A -> rprog V B) : noclo p -> (forall x, noclo (k x)) -> noclo (rbind p k).
  Proof. intros H F. induction p; simpl in *; auto. Qed.
  Lemma noclo_push b (a : option (ans V)) : noclo (rmap (RNat (V := V)) (
    rbind (lift (chk PClosure (to_val a))) (fun v => rbind (lift (single_item_as_ref b)) (fun _ => rbind (lift (initialize_unchecked b v)) (fun _ => RRet b))))).
  Proof.
    apply noclo_bind; [|intros; exact I]. repeat (apply noclo_bind; [apply noclo_lift|intros]). exact I.
  Qed.
  Theorem phases r t d fr : rexecution E ro nl l0 c0 m0 r -> frame_at (stack t (rrun r)) d = Some fr ->
    phase (rsh r) (raccs (rhist r) (f_id fr)) (f_op fr) (f_prog fr).
  Proof.
    intros X. revert t d fr. change (framed phase r). apply (frames E ro nl l0 c0 m0 phase); [| | | | |assumption]; clear.
    - intros s o. destruct o; cbn [phase]; auto; try apply (tidy_op E); try reflexivity. apply noclo_lift.
    - intros s tr o a k u y s' lg H Ex Ft EO CO. pose proof (exec_reads_in _ _ _ _ _ _ Ex) as Ri.
      assert (T : forall f, tidy f (fun _ => True) (fun _ _ => True) (reads_in tr) (RAct a k) -> tidy f (fun _ => True) (fun _ _ => True) (reads_in (tr ++ lg)) (k y)).
      { intros f T. rewrite reads_in_app, Ri. replace (_ + _) with (after_read a (reads_in tr)) by (destruct a; simpl; lia). apply T. }
      assert (X : forall o, match o with RExtend _ | RExtendFor _ | RExtendN _ => True | _ => False end ->
        (RAct a k = rop_prog E o \/ exists b kc, In (AcAdd b (asks o)) tr /\ kc <= cap s /\ roomy (asks o) (b + asks o) (fun _ _ => True) kc (RAct a k)) ->
        k y = rop_prog E o \/ exists b kc, In (AcAdd b (asks o)) (tr ++ lg) /\ kc <= cap s' /\ roomy (asks o) (b + asks o) (fun _ _ => True) kc (k y)).
      { clear H T. intros o' Ho [H|(b & kc & I & L & Ro)]; right.
        - destruct (roomy_op E o' Ho) as (k' & Hk & Ro). rewrite Hk in H. 
          destruct (add_inv _ _ _ _ _ _ _ _ _ _ H Ex Ft) as (-> & W & ->). exists (resv s), 0. split; [apply in_or_app; right; now left|].
          split; [lia|]. now apply Ro.
        - exists b, (capof kc a y). split; [apply in_or_app; auto|]. split; [eapply exec_capof; eauto|]. apply Ro. }
      destruct o; cbn [phase] in *; auto.
      + destruct H as [[H ->]|[(b & k' & _ & H & _)|H]]; [|discriminate|right; right; apply H]. right. left.
        destruct (add_inv _ _ _ _ _ _ _ _ _ _ H Ex Ft) as (-> & _ & ->). do 2 eexists. split; [reflexivity|]. split; [reflexivity|]. apply noclo_push.
    - intros s tr o a g k u y s' lg H Ex Gy EO CO. pose proof (exec_reads_in _ _ _ _ _ _ Ex) as Ri.
      assert (T : forall f, tidy f (fun _ => True) (fun _ _ => True) (reads_in tr) (RSpin a g k) -> tidy f (fun _ => True) (fun _ _ => True) (reads_in (tr ++ lg)) (k y)).
      { intros f T. rewrite reads_in_app, Ri. replace (_ + _) with (after_read a (reads_in tr)) by (destruct a; simpl; lia). apply T. }
      destruct o; cbn [phase] in *; auto; try (apply T; exact H); try apply H.
      1:{ destruct H as [[H _]|[(b & k' & _ & H & _)|H]]; [discriminate|discriminate|right; right; apply H]. }
      all: destruct H as [H|(b & kc & I & L & Ro)]; [discriminate|]; right; exists b, (capof kc a y); split; [apply in_or_app; auto|];
        (split; [eapply exec_capof; eauto|]); now apply Ro.
    - intros s tr o k a H. destruct o; cbn [phase] in *; try contradiction; try apply H.
      1:{ destruct H as [[H _]|[(b & k' & Ht & H & N)|H]]; [discriminate| |contradiction]. right. right. injection H as ->. apply N. }
      all: destruct H as [H|(b & kc & I & L & Ro)]; [discriminate|]; right; exists b, kc; repeat (split; [assumption|]); apply Ro.
    - intros s tr o p s' H L. destruct o; cbn [phase] in *; auto.
      all: destruct H as [H|(b & kc & I & L' & Ro)]; [auto|]; right; exists b, kc; split; [assumption|]; (split; [lia|exact Ro]).
  Qed.

  Lemma flat_frame r w c t d fr : sim w r c -> frame_at (stack t (rrun r)) d = Some fr -> exists x, lookup (agent t d) (run c) = Some x /\ matches w (answers r) fr x.
  Proof. intros S F. pose proof (sm_run _ _ _ S t d) as M. rewrite F in M. destruct (lookup (agent t d) (run c)); [eauto|contradiction]. Qed.
  Lemma flat_frame_inv r w c u x : sim w r c -> lookup u (run c) = Some x -> exists t d fr, u = agent t d /\ frame_at (stack t (rrun r)) d = Some fr /\ matches w (answers r) fr x.
  Proof.
    intros S L. destruct (agent_onto u) as (t & d & ->). pose proof (sm_run _ _ _ S t d) as M. rewrite L in M.
    destruct (frame_at (stack t (rrun r)) d) eqn:F; [eauto 6|contradiction].
  Qed.
  Lemma same_touches (o : rop V) u u' i : touches (with_answers u o) i -> touches (with_answers u' o) i.
  Proof. destruct o; auto. Qed.
  Lemma same_grows (o : rop V) u u' : grows (with_answers u o) = grows (with_answers u' o).
  Proof. destruct o; reflexivity. Qed.

  (** A suspended call holds nothing but the element it lends. *)
  Lemma light_calm {R} (L : R -> Prop) b ow (p : rprog V R) (q : prog V R) H u : light L p -> agr (fun _ a b => a = b) ow p q ->
    calm b false (fun _ H _ => H = []) H u q -> H = [].
  Proof.
    intros Li A C. destruct p; simpl in Li; try contradiction.
    - apply agr_inv in A as (y & -> & _). exact C.
    - apply agr_inv in A. subst q. exact C.
    - apply agr_inv in A as (k' & -> & _). destruct C as [[C|C] _]; [discriminate|assumption].
  Qed.
  Lemma suspended_holds r w c f t d fr k i x : rexecution E ro nl l0 c0 m0 r -> execution E ro nl l0 c0 m0 c -> sim w r c -> holds E c f ->
    frame_at (stack t (rrun r)) d = Some fr -> f_prog fr = RClo k -> lookup (agent t d) (run c) = Some x -> In i (fst (f (agent t d))) ->
    lends (f_op fr) (length (values_read (rhist r) (f_id fr))) = Some i.
  Proof.
    intros X Xc S K F P Lk Hi. destruct (flat_frame _ _ _ _ _ _ S F) as (x' & Lk' & M1 & M2 & A). rewrite Lk in Lk'. injection Lk' as <-.
    pose proof (k_touch _ _ _ K _ _ _ Lk Hi) as T. rewrite M2 in T. pose proof (phases _ _ _ _ X F) as Ph. rewrite P in Ph, A. apply agr_inv in A.
    pose proof (k_calm _ _ _ K _ _ Lk) as Ca.
    set (a := dropw _ _ 0) in A. set (H := fst (f (agent t d))) in *. set (u := snd (f (agent t d))) in *.
    assert (Wh : waits_holding E (c_op x) = false \/ exists o, f_op fr = RPlain o).
    { rewrite M2. unfold waits_holding. destruct (f_op fr); eauto. }
    destruct Wh as [Wh|(o & Ho)]; [|rewrite Ho in Ph; contradiction]. rewrite Wh in Ca.
    assert (Q : rest_ok (fun _ => True) (lends (f_op fr) (reads_in (raccs (rhist r) (f_id fr)))) (k a)).
    { destruct (f_op fr); try contradiction; apply Ph. }
    rewrite reads_values in Q. destruct (lends _ _) as [j|].
    - assert (Y : inhabited V).
      { assert (NF : forall g, step E c (LStep (agent t d)) <> Fault g) by (intros g; eapply execution_no_fault; eauto; exact Logic.I).
        simpl in NF. unfold step_thread in NF. rewrite Lk in NF. unfold rest_ok in Q. destruct (k a) as [| |b k1| |]; try contradiction.
        apply agr_inv in A as (k2 & A & _). rewrite A in NF. destruct (exec E (agent t d) b (sh c)) as [y s' l|g]; [|exfalso; eapply NF; reflexivity].
        destruct b; try contradiction; constructor; exact y. }
      destruct Y as [y]. unfold rest_ok in Q. destruct (k a) as [| |b k1| |]; try contradiction. apply agr_inv in A as (k2 & A & A2). rewrite A in Ca.
      assert (Ce : exists v, calm (self_swap (c_op x)) false (fun _ H _ => H = []) H u (k2 v) /\ j = match b with RdEnd j | WrEnd j _ => j | _ => 0 end /\ drops (fun _ => True) j (k1 v)).
      { destruct b; try contradiction; destruct Q as [-> Q], Ca as [_ Ca]; exists y; specialize (Ca y Logic.I); cbn [held known] in Ca; auto. }
      clear Ca. destruct Ce as (v & Ca & _ & Dr). specialize (A2 v). unfold drops in Dr. destruct (k1 v) as [| |b' k3| |]; try contradiction.
      destruct b'; try contradiction. destruct s; try contradiction. destruct Dr as [Ej Dr]. rewrite Ej in *. apply agr_inv in A2 as (k4 & A2 & A3). rewrite A2 in Ca.
      destruct Ca as [_ Ca]. specialize (Ca tt Logic.I). cbn [held known] in Ca. pose proof (light_calm _ _ _ _ _ _ _ (Dr tt) (A3 tt) Ca) as Em.
      f_equal. clearbody H. clear - Em Hi. destruct H as [|h H]; [destruct Hi|]. simpl in Em. destruct (Nat.eqb_spec j h) as [e|]; [|discriminate]. rewrite Em in Hi. destruct Hi as [Hi|[]]. congruence.
    - exfalso. simpl in Q. pose proof (light_calm _ _ _ _ _ _ _ Q A Ca) as Em. rewrite Em in Hi. destruct Hi.
  Qed.
End Suspended.

(** ** What a call waits for *)
Section Waits.
  Context {V : Type} (E : env V) (ro nl : bool) (l0 : list V) (c0 m0 : nat).
  Implicit Types (r : rcfg V).
  Notation rexec := (rexecution E ro nl l0 c0 m0).

  Lemma took_accs (h : list (revent V)) id b n : took h id b n <-> In (AcAdd b n) (raccs h id).
  Proof. symmetry. apply raccs_in. Qed.
  Lemma rno_loop {R} (p : rprog V R) : match p with RAct a k => forall y, k y <> p | RSpin a _ k => forall y, k y <> p | _ => True end.
  Proof.
    induction p as [r|m|a k IH|a ag k IH|k IH]; try exact Logic.I.
    - intros y Hy. specialize (IH y). rewrite Hy in IH. exact (IH y Hy).
    - intros y Hy. specialize (IH y). rewrite Hy in IH. exact (IH y Hy).
  Qed.
  Lemma rstay_inv r t : rstep E r (NLStep t) = RNext r -> exists fr rest a ag k y s' l,
    stack t (rrun r) = fr :: rest /\ f_prog fr = RSpin a ag k /\ exec E (agent t (length rest)) a (rsh r) = Done y s' l /\ ag y = true.
  Proof.
    intros S. cbv beta iota zeta delta [rstep] in S. destruct (stack t (rrun r)) as [|fr rest] eqn:St; [discriminate|].
    assert (A : forall p s lg, rafter t r fr rest p s lg = r -> p = f_prog fr).
    { intros p s lg Q. assert (K : stack t (rrun (rafter t r fr rest p s lg)) = fr :: rest) by (rewrite Q; exact St).
      unfold rafter in K. cbn [rrun] in K. rewrite stack_put, Nat.eqb_refl in K. injection K as K. now rewrite <- K. }
    assert (K : forall h e, h ++ [e] <> (h : list (revent V))) by (intros h e Q; apply (f_equal (@length _)) in Q; rewrite app_length in Q; simpl in Q; lia).
    pose proof (rno_loop (f_prog fr)) as NL. destruct (f_prog fr) as [v|m|a k|a ag k|k] eqn:P; [| | | |discriminate].
    - apply rnext_inj in S. apply (f_equal (@rhist V)) in S. cbn [rhist] in S. now apply K in S.
    - apply rnext_inj in S. apply (f_equal (@rhist V)) in S. cbn [rhist] in S. now apply K in S.
    - destruct (exec _ _ _ _) as [y s lg|f] eqn:Ex; [|discriminate]. apply rnext_inj in S. apply A in S. now apply NL in S.
    - destruct (exec _ _ _ _) as [y s lg|f] eqn:Ex; [|discriminate]. destruct (ag y) eqn:Ag; [exists fr, rest, a, ag, k, y, s, lg; auto|].
      apply rnext_inj in S. apply A in S. now apply NL in S.
  Qed.
  Lemma frame_open r t d fr : rexec r -> frame_at (stack t (rrun r)) d = Some fr -> ropen (rhist r) (f_id fr) t d (f_op fr).
  Proof. intros X F. destruct (nest_of _ _ _ _ _ _ _ X) as [R N]. split; [now apply (ri_ids _ R)|now apply (ne_open _ N t d)]. Qed.
  Lemma top_innermost r t d : rexec r -> length (stack t (rrun r)) = S d -> innermost (rhist r) t d.
  Proof.
    intros X L id d' o O. destruct (nest_of _ _ _ _ _ _ _ X) as [R N]. destruct (ne_frame _ N _ _ _ _ O) as (fr & F & _). apply frame_len in F. lia.
  Qed.
  (** Calls deeper in a closure are younger. *)
  Lemma frame_order r t d1 fr1 d2 fr2 : rexec r -> frame_at (stack t (rrun r)) d1 = Some fr1 -> frame_at (stack t (rrun r)) d2 = Some fr2 -> d1 < d2 ->
    inside (rhist r) (f_id fr2) (f_id fr1) (f_op fr1).
  Proof.
    intros X F1 F2 L. destruct (frame_open _ _ _ _ X F1) as [I1 D1]. destruct (frame_open _ _ _ _ X F2) as [I2 D2].
    assert (Lt : f_id fr1 < f_id fr2).
    { destruct (Nat.lt_trichotomy (f_id fr1) (f_id fr2)) as [?|[e|Q]]; [assumption| |]; exfalso.
      - rewrite e, I2 in I1. injection I1 as e'. lia.
      - destruct (prefix _ _ _ _ _ _ _ _ _ X I1) as (r1 & l & r2 & X1 & S & H1 & H2 & _). destruct (nest_of _ _ _ _ _ _ _ X1) as [_ N1].
        assert (O2 : ropen (rhist r1) (f_id fr2) t d2 (f_op fr2)).
        { split; [rewrite H1, firstn_nth; assumption|]. rewrite H1. apply (rdone_firstn _ _ (length (rhist r))); [|now rewrite firstn_all].
          apply Nat.lt_le_incl, nth_error_Some. congruence. }
        destruct (ne_frame _ N1 _ _ _ _ O2) as (fr & F & _). apply frame_len in F.
        destruct (rstep_move E _ _ _ S) as [|t' o' U|t' fr' rest a y s lg p St Ex P|t' id' o' k rest a St|t' fr' rest e' g St P|s e' g Q' O']; cbn [rhist] in H2.
        + apply (f_equal (@length _)) in H2. rewrite app_length in H2. simpl in H2. lia.
        + apply app_inj_tail in H2 as [_ H2]. injection H2 as _ -> H2 _. lia.
        + unfold rafter in H2. cbn [rhist] in H2. apply app_inv_head in H2. destruct lg; discriminate.
        + apply (f_equal (@length _)) in H2. rewrite app_length in H2. simpl in H2. lia.
        + apply app_inj_tail in H2 as [_ H2]. destruct P as [(x & -> & _)|(m & -> & _)]; discriminate.
        + apply app_inj_tail in H2 as [_ H2]. subst e'. discriminate. }
    exists t, d1, d2, (f_op fr2). split; [assumption|]. split; [|assumption]. split; [rewrite firstn_nth; assumption|].
    apply (rdone_firstn _ _ (length (rhist r))); [|now rewrite firstn_all]. apply Nat.lt_le_incl, nth_error_Some. congruence.
  Qed.

  (** The only suspended call that holds a position beyond the capacity is a [push_for_idx]. *)
  Lemma suspended_position r w c t d fr k : rexec r -> execution E ro nl l0 c0 m0 c -> sim w r c -> frame_at (stack t (rrun r)) d = Some fr -> f_prog fr = RClo k ->
    a_pos (replay (abs0 l0 m0) (hist c)) (cap (rsh r)) = Reserved (f_id fr) -> f_op fr = RPushFor /\ took (rhist r) (f_id fr) (cap (rsh r)) 1.
  Proof.
    intros X Xc S F P Rs. destruct (flat_frame _ _ _ _ _ _ S F) as (x & Lk & M1 & M2 & _).
    destruct (reserved_grows _ _ _ _ _ _ _ _ _ Xc Rs) as (u & z & b & Lu & Iz & Gz & Hin & Hb).
    destruct (execution_world _ _ _ _ _ _ c Xc) as (snap & g & W). destruct (same_call _ _ _ _ _ _ _ _ _ _ _ _ (w_gi _ _ _ _ _ _ _ _ W) Lk Lu) as [-> ->]; [congruence|].
    rewrite M2 in *. rewrite (sm_hist _ _ _ S), raccs_flat in Hin. pose proof (phases _ _ _ _ _ _ _ _ _ _ X F) as Ph. rewrite P in Ph.
    destruct (execution_base E ro nl l0 c0 m0 c Xc _ _ Lk) as [(_ & _ & Na)|(b1 & _ & _ & _ & _ & H3)].
    { exfalso. apply (Na b (request (with_answers (w (f_id fr)) (f_op fr)))). rewrite M1, (sm_hist _ _ _ S), raccs_flat. exact Hin. }
    rewrite M1, (sm_hist _ _ _ S), raccs_flat in H3.
    assert (Ex : forall o, f_op fr = o -> match o with RExtend _ | RExtendFor _ | RExtendN _ => True | _ => False end -> False).
    { intros o Ho Mo. assert (Ph' : RClo k = rop_prog E o \/ exists b kc, In (AcAdd b (asks o)) (raccs (rhist r) (f_id fr)) /\ kc <= cap (rsh r) /\ roomy (asks o) (b + asks o) (fun _ _ => True) kc (RClo k)).
      { rewrite Ho in Ph. destruct o; try contradiction; exact Ph. }
      destruct Ph' as [Q|(b2 & kc & I2 & Lc & Ro)]; [destruct o; try contradiction; discriminate|]. destruct Ro as [Ro _].
      destruct (H3 _ _ Hin) as [E1 E2]. destruct (H3 _ _ I2) as [E3 E4]. rewrite Ho in Hb, E2. destruct o; try contradiction; cbn [asks with_answers request] in *; lia. }
    destruct (f_op fr) eqn:Ho; try discriminate Gz; try (exfalso; eapply Ex; [reflexivity|exact Logic.I]).
    - destruct Ph.
    - split; [reflexivity|]. apply took_accs. cbn [with_answers request] in *. replace (cap (rsh r)) with b by lia. exact Hin.
  Qed.

  Theorem waits_on r t : rexec r -> rstep E r (NLStep t) = RNext r -> exists id d o, ropen (rhist r) id t d o /\ innermost (rhist r) t d /\
    ((exists i, rtouches o i /\
        (has_lent (rhist r) id i \/
         exists id' t' d' o', t' <> t /\ ropen (rhist r) id' t' d' o' /\ rtouches o' i /\
           (innermost (rhist r) t' d' \/ lends o' (length (values_read (rhist r) id')) = Some i))) \/
     (rgrows o = true /\ exists b, took (rhist r) id b (asks o) /\ cap (rsh r) < b /\
        ((exists id' t' d' o', ropen (rhist r) id' t' d' o' /\ rgrows o' = true /\
            a_pos (replay (abs0 l0 m0) (flatten r)) (cap (rsh r)) = Reserved id' /\
            (t' <> t /\ innermost (rhist r) t' d' \/
             o' = RPushFor /\ took (rhist r) id' (cap (rsh r)) 1 /\ (t' = t -> inside (rhist r) id id' RPushFor))) \/
         a_pos (replay (abs0 l0 m0) (flatten r)) (cap (rsh r)) = Abandoned)) \/
     (exists o1, o = RPlain o1 /\ self_swap o1 = true /\ hspin E = true)).
  Proof.
    intros X S. destruct (rstay_inv _ _ S) as (fr & rest & a & ag & k & y & s' & l & St & P & Ex & Ag).
    assert (F : frame_at (stack t (rrun r)) (length rest) = Some fr) by (rewrite St; apply top_frame).
    exists (f_id fr), (length rest), (f_op fr). split; [now apply frame_open|]. split; [apply top_innermost; [assumption|now rewrite St]|].
    destruct (simulation _ _ _ _ _ _ _ X) as [R Sm]. destruct (Sm _ (consistent_self _)) as (c & Xc & Si). destruct (nest_of _ _ _ _ _ _ _ X) as [_ N].
    destruct (flat_frame _ _ _ _ _ _ Si F) as (x & Lk & M1 & M2 & A). rewrite P in A. apply agr_inv in A as (k' & A & _).
    assert (Sc : step E c (LStep (agent t (length rest))) = Next c).
    { simpl. unfold step_thread. rewrite Lk, A, (sm_sh _ _ _ Si), Ex, Ag. reflexivity. }
    destruct (waiting_on E ro nl l0 c0 m0 c _ Xc Sc) as (x' & snap & g & f & W & K & Lk' & Q). rewrite Lk in Lk'. injection Lk' as <-.
    assert (Hh : hist c = flatten r) by apply Si. pose proof (sm_sh _ _ _ Si) as Hs.
    assert (Ac : forall id, accs id (hist c) = raccs (rhist r) id) by (intros id; rewrite (sm_hist _ _ _ Si); apply raccs_flat).
    assert (Gr : forall (o : rop V) b n, rgrows o = true -> In (AcAdd b (request (with_answers n o))) (accs (c_id x) (hist c)) -> took (rhist r) (f_id fr) b (asks o)).
    { intros o b n _ Hin. apply took_accs. rewrite Ac, M1 in Hin. rewrite (same_request o n (fun _ => None)) in Hin. exact Hin. }
    destruct Q as [(u & z & Nu & Lu & _ & _ & Q)|[(Ss & Wh & _)|(Gx & b & Hin & Lc & Ab)]].
    - destruct (flat_frame_inv _ _ _ _ _ Si Lu) as (t' & d' & fr' & -> & F' & M1' & M2' & _). pose proof (frame_len _ _ _ F') as Ld.
      destruct Q as [(i & _ & _ & T1 & T2 & Hi)|(Gx & b & Hin & Lc & Gz & Rs)].
      + left. exists i. rewrite M2 in T1. rewrite M2' in T2. split; [eapply same_touches; exact T1|].
        destruct (Nat.eq_dec t' t) as [->|Nt].
        * left. assert (d' < length rest). { rewrite St in Ld. simpl in Ld. assert (d' <> length rest) by congruence. lia. }
          destruct (ne_susp _ N _ _ _ F') as (k1 & P1); [rewrite St; simpl; lia|].
          pose proof (suspended_holds _ _ _ _ _ _ _ _ _ _ _ _ _ _ _ _ X Xc Si K F' P1 Lu Hi) as Le.
          pose proof (frame_order _ _ _ _ _ _ X F' F H) as Ins. exists (f_id fr'), (f_op fr'). split; [assumption|].
          rewrite <- (outer_values _ _ _ _ _ _ _ _ _ _ X Ins); [assumption|]. now apply (ne_open _ N t (length rest)).
        * right. exists (f_id fr'), t', d', (f_op fr'). split; [assumption|]. split; [now apply frame_open|]. split; [eapply same_touches; exact T2|].
          destruct (Nat.eq_dec (length (stack t' (rrun r))) (Datatypes.S d')); [left; now apply top_innermost|]. right.
          destruct (ne_susp _ N _ _ _ F') as (k1 & P1); [lia|]. eapply suspended_holds; eauto.
      + right. left. rewrite M2 in Gx, Hin. rewrite M2' in Gz. rewrite (same_grows _ _ (fun _ => None)) in Gx. rewrite (same_grows _ _ (fun _ => None)) in Gz. split; [exact Gx|]. exists b.
        split; [eapply Gr; eassumption|]. rewrite Hs in *. split; [assumption|]. left. exists (f_id fr'), t', d', (f_op fr'). rewrite <- Hh, <- M1'.
        split; [rewrite M1'; now apply frame_open|]. split; [exact Gz|]. split; [assumption|].
        assert (Susp : Datatypes.S d' < length (stack t' (rrun r)) -> f_op fr' = RPushFor /\ took (rhist r) (c_id z) (cap (rsh r)) 1).
        { intros Ls. destruct (ne_susp _ N _ _ _ F' Ls) as (k1 & P1). rewrite M1'. eapply suspended_position; eauto. congruence. }
        destruct (Nat.eq_dec t' t) as [->|Nt].
        * right. assert (d' < length rest). { rewrite St in Ld. simpl in Ld. assert (d' <> length rest) by congruence. lia. }
          destruct Susp as [Q1 Q2]; [rewrite St; simpl; lia|]. split; [assumption|]. split; [assumption|]. intros _. rewrite <- Q1, M1'. eapply frame_order; eauto.
        * destruct (Nat.eq_dec (length (stack t' (rrun r))) (Datatypes.S d')); [left; split; [assumption|]; now apply top_innermost|].
          right. destruct Susp as [Q1 Q2]; [lia|]. repeat (split; [assumption|]). contradiction.
    - right. right. unfold waits_holding in Wh. apply andb_true_iff in Wh as [_ Wh]. rewrite M2 in Ss. destruct (f_op fr); try discriminate Ss. eauto.
    - right. left. rewrite M2 in Gx, Hin. rewrite (same_grows _ _ (fun _ => None)) in Gx. split; [exact Gx|]. exists b.
      split; [eapply Gr; eassumption|]. rewrite Hs in *. split; [assumption|]. right. now rewrite <- Hh.
  Qed.
End Waits.
