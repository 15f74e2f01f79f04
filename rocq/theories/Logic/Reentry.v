(** * A re-entrant execution is an execution in which the nested calls are made by other threads. *)

From Coq Require Import List Arith Bool Lia Cantor.
From Verif.Model Require Import Prog Mem Deps State Elem Vec Excl Machine Reentrant.
From Verif Require Import Client Spec Nested.
From Verif.Logic Require Import Inv WP Post Specs Ops Sound Shape Clients.
Import ListNotations.

Section Agree.
  Context {V : Type} (E : env V).
  Notation oracle := (nat -> option (ans V)).

  (** [agr Q w p q]: with the answers [w], [p] makes the accesses of [q]; [Q] relates the results and
      the answers that are left. *)
  Inductive agr {A B} (Q : oracle -> A -> B -> Prop) : oracle -> rprog V A -> prog V B -> Prop :=
  | ag_ret w a b : Q w a b -> agr Q w (RRet a) (Ret b)
  | ag_pan w m : agr Q w (RPan m) (Pan m)
  | ag_act w a k k' : (forall x, agr Q w (k x) (k' x)) -> agr Q w (RAct a k) (Act a k')
  | ag_spin w a g k k' : (forall x, agr Q w (k x) (k' x)) -> agr Q w (RSpin a g k) (Spin a g k')
  | ag_clo w k q : agr Q (later w) (k (w 0)) q -> agr Q w (RClo k) q.

  Lemma agr_bind {A B A' B'} (Q : oracle -> A -> B -> Prop) (R : oracle -> A' -> B' -> Prop) w p q f g :
    agr Q w p q -> (forall w' a b, Q w' a b -> agr R w' (f a) (g b)) -> agr R w (rbind p f) (bind q g).
  Proof. intros H K. induction H; cbn [rbind bind]; [now apply K|constructor; auto ..]. Qed.
  Lemma agr_lift {A} (Q : oracle -> A -> A -> Prop) w p : (forall a, Q w a a) -> agr Q w (lift p) p.
  Proof. intros H. induction p; cbn [lift]; constructor; auto. Qed.
  Lemma agr_lift_bind {A A' B'} (R : oracle -> A' -> B' -> Prop) w (p : prog V A) f g :
    (forall a, agr R w (f a) (g a)) -> agr R w (rbind (lift p) f) (bind p g).
  Proof. intros H. apply (agr_bind (fun w' a b => w' = w /\ a = b)); [apply agr_lift; auto|]. intros ? a b [-> ->]. auto. Qed.
  Lemma agr_map {A B} (f : A -> B) w p q : agr (fun _ a b => a = b) w p q -> agr (fun _ a b => a = b) w (rmap f p) (fmap f q).
  Proof. intros H. eapply agr_bind; [exact H|]. intros ? ? ? ->. now constructor. Qed.

  Lemma a_elem_map {U} i (f : option (ans V) -> option U) (g : V -> option U) w : (forall v, g v = f (w 0)) ->
    agr (fun w' a b => w' = later w /\ a = b) w (r_elem_map i f) (elem_map i g).
  Proof.
    intros H. apply (agr_bind (fun w' a b => a = b /\ (w' = later w \/ b = None))).
    - apply agr_lift_bind. intros [|]; [|constructor; auto]. apply agr_lift_bind. intros _. constructor.
      apply agr_lift_bind. intros v. apply agr_lift_bind. intros _. rewrite H. destruct (f (w 0)); constructor; auto.
    - intros w' a b [-> [-> | ->]]; [|constructor]. apply agr_lift. auto.
  Qed.
  Lemma a_map_elems l : forall w, agr (fun _ a b => a = b) w (r_map_elems l) (map_elems l (fun k _ => to_val (w k))).
  Proof.
    induction l as [|e l IH]; intros w; cbn [r_map_elems map_elems]; [now constructor|].
    eapply agr_bind; [now apply a_elem_map|]. intros w' u ? [-> <-]. eapply agr_bind; [apply (IH (later w))|]. intros ? r ? <-. now constructor.
  Qed.
  Lemma a_filter_elems l : forall w, agr (fun _ a b => a = b) w (r_filter_elems l) (filter_elems l (fun k _ => to_bool (w k))).
  Proof.
    induction l as [|e l IH]; intros w; cbn [r_filter_elems filter_elems]; [now constructor|].
    eapply agr_bind; [now apply a_elem_map|]. intros w' u ? [-> <-]. eapply agr_bind; [apply (IH (later w))|]. intros ? r ? <-. now constructor.
  Qed.
  Lemma a_fold_elems l : forall w u, agr (fun _ a b => a = b) w (r_fold_elems l u) (fold_elems l u (fun k _ _ => to_val (w k))).
  Proof.
    induction l as [|e l IH]; intros w u; cbn [r_fold_elems fold_elems]; [now constructor|].
    eapply agr_bind; [now apply a_elem_map|]. intros w' ? ? [-> <-]. apply (IH (later w)).
  Qed.
  Lemma a_fill_elems f l : forall k w, (forall j, f (k + j) = to_val (w j)) -> agr (fun _ a b => a = b) w (r_fill_elems l) (fill_elems_with k l f).
  Proof.
    induction l as [|e l IH]; intros k w H; cbn [r_fill_elems fill_elems_with]; [now constructor|]. constructor.
    replace (f k) with (to_val (w 0)) by (rewrite <- H; f_equal; lia). apply agr_lift_bind. intros v. apply agr_lift_bind. intros _. apply IH.
    intros j. change (to_val (later w j)) with (to_val (w (S j))). rewrite <- H. f_equal. lia.
  Qed.
  Lemma a_reduce x w : agr (fun _ a b => a = b) w (r_slice_reduce x) (slice_reduce x (fun k _ _ => to_val (w k))).
  Proof.
    apply agr_lift_bind. intros [|e l]; [now constructor|]. apply agr_lift_bind. intros u.
    eapply agr_bind; [apply a_fold_elems|]. intros ? r ? <-. now constructor.
  Qed.
  Lemma a_write n : forall i w, agr (fun _ a b => a = b) w (r_write_items i n) (write_items i n (items n w)).
  Proof.
    induction n as [|n IH]; intros i w; cbn [r_write_items write_items items]; [now constructor|]. constructor.
    destruct (w 0) as [[v|b| |k|v b]|]; [|constructor ..]. apply agr_lift_bind. intros _. apply (IH (S i) (later w)).
  Qed.

  Theorem agr_op o w : agr (fun _ a b => a = b) w (rop_prog E o) (op_prog E (with_answers w o)).
  Proof.
    destruct o; cbn [rop_prog with_answers op_prog eop_prog sop_prog].
    - apply agr_lift. auto.
    - eapply agr_bind; [now apply a_elem_map|]. intros ? ? ? [_ <-]. now constructor.
    - apply agr_map. apply (agr_bind (fun _ a b => a = b)); [|intros ? [|] ? <-; constructor; auto].
      apply agr_lift_bind. intros [|]; [|now constructor]. apply agr_lift_bind. intros _. constructor.
      apply agr_lift_bind. intros v. apply agr_lift_bind. intros _. destruct (snd (to_write (w 0) v)); constructor; auto.
    - apply agr_map. apply agr_lift_bind. intros l. apply a_map_elems.
    - apply agr_map. apply agr_lift_bind. intros l. apply a_filter_elems.
    - apply agr_map. apply agr_lift_bind. intros l. apply a_fold_elems.
    - apply agr_map. apply agr_lift_bind. intros x. apply a_reduce.
    - apply agr_map. apply agr_lift_bind. intros l. apply a_fill_elems. reflexivity.
    - apply agr_map. apply agr_lift_bind. intros l. apply a_map_elems.
    - apply agr_map. apply agr_lift_bind. intros l. apply a_filter_elems.
    - apply agr_map. apply agr_lift_bind. intros l. apply a_fold_elems.
    - apply agr_map. apply a_reduce.
    - apply agr_map. apply agr_lift_bind. intros l. apply a_fill_elems. reflexivity.
    - apply agr_map. apply agr_lift_bind. intros b. constructor.
      apply agr_lift_bind. intros v. apply agr_lift_bind. intros _. apply agr_lift_bind. intros _. now constructor.
    - apply agr_map. apply agr_lift_bind. intros b. apply agr_lift_bind. intros _.
      eapply agr_bind; [apply a_write|]. intros. now constructor.
    - apply agr_map. apply agr_lift_bind. intros b. apply agr_lift_bind. intros _. constructor.
      destruct (w 0) as [[v|x| |k|v x]|]; [constructor|constructor|constructor| |constructor ..]. cbn [chk bind fst snd]. destruct (k =? n); [|constructor].
      eapply agr_bind; [apply (a_write n b (later w))|]. intros. now constructor.
    - apply agr_map. apply agr_lift_bind. intros b. apply agr_lift_bind. intros _.
      eapply agr_bind; [apply a_write|]. intros. now constructor.
  Qed.
End Agree.

Section Inversion.
  Context {V : Type} {A B : Type} (Q : (nat -> option (ans V)) -> A -> B -> Prop).
  Lemma agr_inv w p q : agr Q w p q ->
    match p with
    | RRet a => exists b, q = Ret b /\ Q w a b
    | RPan m => q = Pan m
    | RAct a k => exists k', q = Act a k' /\ forall x, agr Q w (k x) (k' x)
    | RSpin a g k => exists k', q = Spin a g k' /\ forall x, agr Q w (k x) (k' x)
    | RClo k => agr Q (later w) (k (w 0)) q
    end.
  Proof. destruct 1; eauto. Qed.
End Inversion.

(** ** Stacks *)
Section Stacks.
  Context {F : Type}.
  Definition frame_at (s : list F) (d : nat) : option F := nth_error (rev s) d.
  Lemma frame_push (fr : F) s d : frame_at (fr :: s) d = if d =? length s then Some fr else frame_at s d.
  Proof.
    unfold frame_at. simpl. destruct (Nat.eqb_spec d (length s)) as [->|N].
    - rewrite nth_error_app2 by (rewrite rev_length; lia). now rewrite rev_length, Nat.sub_diag.
    - destruct (Nat.lt_ge_cases d (length s)).
      + rewrite nth_error_app1 by (rewrite rev_length; lia). reflexivity.
      + rewrite !(proj2 (nth_error_None _ _)); [reflexivity|rewrite rev_length; lia|rewrite app_length, rev_length; simpl; lia].
  Qed.
  Lemma frame_len (s : list F) d fr : frame_at s d = Some fr -> d < length s.
  Proof. intros H. rewrite <- rev_length. apply nth_error_Some. unfold frame_at in H. congruence. Qed.
  Lemma frame_none (s : list F) d : length s <= d -> frame_at s d = None.
  Proof. intros H. apply nth_error_None. now rewrite rev_length. Qed.

  Lemma stack_put u t s (l : list (nat * list F)) : stack u (put t s l) = if u =? t then s else stack u l.
  Proof.
    assert (K : forall l : list (nat * list F), stack u (filter (fun p => negb (t =? fst p)) l) = if u =? t then [] else stack u l).
    { clear l. induction l as [|[v x] l IH]; [simpl; destruct (u =? t); reflexivity|]. cbn [filter fst stack].
      destruct (Nat.eqb_spec t v) as [->|N]; cbn [negb]; [|cbn [stack]]; rewrite IH; destruct (Nat.eqb_spec u v); auto.
      - subst. destruct (Nat.eqb_spec v t); congruence. }
    unfold put. destruct s as [|fr s]; [now rewrite K; destruct (u =? t)|]. cbn [stack].
    destruct (Nat.eqb_spec u t); [reflexivity|]. rewrite K. destruct (Nat.eqb_spec u t); [contradiction|reflexivity].
  Qed.
  Lemma put_in u x t s (l : list (nat * list F)) : In (u, x) (put t s l) -> x = s /\ s <> [] \/ In (u, x) l.
  Proof.
    unfold put. destruct s as [|fr s].
    - intros H. apply filter_In in H. tauto.
    - intros [H|H]; [injection H as <- <-; left; split; congruence|]. apply filter_In in H. tauto.
  Qed.
  Lemma agent_inj t d t' d' : agent t d = agent t' d' -> t = t' /\ d = d'.
  Proof.
    unfold agent. intros H. apply (f_equal Cantor.of_nat) in H. rewrite !Cantor.cancel_of_to in H. injection H as -> ->. auto.
  Qed.
  Lemma agent_onto u : exists t d, u = agent t d.
  Proof. exists (fst (Cantor.of_nat u)), (snd (Cantor.of_nat u)). unfold agent. now rewrite <- surjective_pairing, Cantor.cancel_to_of. Qed.
End Stacks.

(** ** Answers *)
Section Answers.
  Context {V : Type}.
  Notation log := (list (nat * option (ans V))).
  Implicit Types (w : nat -> nat -> option (ans V)) (l : log).

  Fixpoint dropw (n : nat) (w : nat -> option (ans V)) : nat -> option (ans V) := match n with 0 => w | S n' => dropw n' (later w) end.
  Lemma dropw_later n : forall w : nat -> option (ans V), later (dropw n w) = dropw (S n) w.
  Proof. induction n as [|n IH]; intros w; [reflexivity|]. cbn [dropw]. now rewrite IH. Qed.
  Lemma dropw_0 n : forall w : nat -> option (ans V), dropw n w 0 = w n.
  Proof. induction n as [|n IH]; intros w; [reflexivity|]. cbn [dropw]. now rewrite IH. Qed.
  Definition asked (id : nat) l : nat := length (filter (fun p => fst p =? id) l).
  Definition consistent w l : Prop := forall id k, k < asked id l -> w id k = answered l id k.
  Lemma consistent_self l : consistent (answered l) l.
  Proof. intros id k _. reflexivity. Qed.
  Lemma asked_snoc id l j a : asked id (l ++ [(j, a)]) = if j =? id then S (asked id l) else asked id l.
  Proof. unfold asked. rewrite filter_app, app_length. simpl. destruct (j =? id); simpl; lia. Qed.
  Lemma answered_snoc id k l j a : k < asked id l -> answered (l ++ [(j, a)]) id k = answered l id k.
  Proof. intros H. unfold answered. rewrite filter_app, map_app. apply app_nth1. now rewrite map_length. Qed.
  Lemma answered_last id l a : answered (l ++ [(id, a)]) id (asked id l) = a.
  Proof.
    unfold answered. rewrite filter_app, map_app. simpl. rewrite Nat.eqb_refl. rewrite app_nth2; rewrite map_length; unfold asked; [|lia].
    now rewrite Nat.sub_diag.
  Qed.
  Lemma consistent_snoc w l j a : consistent w (l ++ [(j, a)]) -> consistent w l /\ w j (asked j l) = a.
  Proof.
    intros H. split.
    - intros id k Hk. rewrite H by (rewrite asked_snoc; destruct (j =? id); lia). now apply answered_snoc.
    - rewrite H by (rewrite asked_snoc, Nat.eqb_refl; lia). apply answered_last.
  Qed.
  Lemma asked_fresh id l : (forall j a, In (j, a) l -> j < id) -> asked id l = 0.
  Proof.
    induction l as [|[j a] l IH]; intros H; [reflexivity|]. unfold asked in *. simpl. destruct (Nat.eqb_spec j id) as [->|].
    - specialize (H id a (or_introl eq_refl)). lia.
    - apply IH. intros j' a' Hi. apply (H j' a'). now right.
  Qed.
End Answers.

(** ** What does not depend on the answers *)
Section Same.
  Context {V : Type} (E : env V).
  Implicit Types (o : rop V) (w : nat -> nat -> option (ans V)).
  Lemma same_allowed o u u' ro nl : allowed E ro nl (with_answers u o) -> allowed E ro nl (with_answers u' o).
  Proof. destruct o; auto. Qed.
  Lemma same_request o u u' : request (with_answers u o) = request (with_answers u' o).
  Proof. destruct o; auto. Qed.
  Lemma same_grant o u u' g : has_grant (with_answers u o) g = has_grant (with_answers u' o) g.
  Proof. destruct o; auto. Qed.
  Lemma same_requested w w' h : forall n, requested n (map (flat_event w) h) = requested n (map (flat_event w') h).
  Proof.
    unfold requested. induction h as [|e h IH]; intros n; [reflexivity|]. cbn [map fold_left]. rewrite IH. f_equal.
    destruct e; simpl; auto. now rewrite (same_request o (w id) (w' id)).
  Qed.
  Lemma flat_nth w h k : nth_error (map (flat_event w) h) k = Datatypes.option_map (flat_event w) (nth_error h k).
  Proof. revert k. induction h; intros [|k]; simpl; auto. Qed.
  Lemma same_overrun w w' (h : list (revent V)) : overrun (map (flat_event w) h) -> overrun (map (flat_event w') h).
  Proof.
    intros (h1 & id & t & m & h2 & o & Q & N & I & C). apply map_eq_app in Q as (g1 & g2 & -> & <- & Q).
    apply map_eq_cons in Q as (e & g & -> & Q & <-). destruct e as [| |id' t' d m'| | |]; try discriminate. simpl in Q. injection Q as <- <- <-.
    rewrite flat_nth in I. destruct (nth_error g1 id') as [[id t d' o'| | | | |]|] eqn:X; try discriminate. simpl in I. injection I as -> J <-.
    exists (map (flat_event w') g1), id', (agent t' d), m', (map (flat_event w') g), (with_answers (w' id') o').
    rewrite map_app. split; [reflexivity|]. split.
    - intros Hi. apply N. apply in_map_iff in Hi as (e & He & Hi). apply in_map_iff. exists e. split; [|assumption]. destruct e; try discriminate; reflexivity.
    - split; [rewrite flat_nth, X; simpl; rewrite J; reflexivity|]. destruct C as [C|[C [f Q]]]; [auto|]. right. split; [assumption|].
      destruct o'; try discriminate; simpl in *; eauto.
  Qed.
End Same.

(** ** The simulation *)
Section Sim.
  Context {V : Type} (E : env V) (ro nl : bool) (l0 : list V) (c0 m0 : nat).
  Implicit Types (r : rcfg V) (c : cfg V) (w : nat -> nat -> option (ans V)).

  (** about the re-entrant configuration alone *)
  Record ri r : Prop := MkRi {
    ri_ids : forall t d fr, frame_at (stack t (rrun r)) d = Some fr -> nth_error (rhist r) (f_id fr) = Some (NInv (f_id fr) t d (f_op fr));
    ri_log : forall id a, In (id, a) (answers r) -> id < length (rhist r);
    ri_ne : forall t s, In (t, s) (rrun r) -> s <> []
  }.
  Definition matches w (l : list (nat * option (ans V))) (fr : frame V) (x : call V) : Prop :=
    c_id x = f_id fr /\ c_op x = with_answers (w (f_id fr)) (f_op fr) /\
    agr (fun _ a b => a = b) (dropw (asked (f_id fr) l) (w (f_id fr))) (f_prog fr) (c_prog x).
  Record sim w r c : Prop := MkSim {
    sm_sh : sh c = rsh r;
    sm_hist : hist c = map (flat_event w) (rhist r);
    sm_given : given c = rgiven r;
    sm_nodup : NoDup (map fst (run c));
    sm_run : forall t d, match frame_at (stack t (rrun r)) d, lookup (agent t d) (run c) with
                         | None, None => True
                         | Some fr, Some x => matches w (answers r) fr x
                         | _, _ => False
                         end
  }.

  Lemma ids_differ r t d fr t' d' fr' : ri r -> frame_at (stack t (rrun r)) d = Some fr -> frame_at (stack t' (rrun r)) d' = Some fr' ->
    f_id fr = f_id fr' -> t = t' /\ d = d'.
  Proof.
    intros R H H' e. apply (ri_ids _ R) in H. apply (ri_ids _ R) in H'. rewrite e in H. rewrite H in H'. injection H' as -> -> _. auto.
  Qed.
  Lemma top_frame fr (s : list (frame V)) : frame_at (fr :: s) (length s) = Some fr.
  Proof. rewrite frame_push, Nat.eqb_refl. reflexivity. Qed.

  (** the stacks after a change of the stack of one thread *)
  Lemma idle_sim w r c : sim w r c -> rrun r = [] -> run c = [].
  Proof.
    intros S H. destruct (run c) as [|[u x] l] eqn:Q; [reflexivity|]. exfalso. destruct (agent_onto u) as (t & d & ->).
    pose proof (sm_run _ _ _ S t d) as M. rewrite H, Q in M. simpl in M. rewrite Nat.eqb_refl in M.
    unfold frame_at in M. simpl in M. destruct d; contradiction.
  Qed.

  Lemma rnext_inj r r' : RNext r = RNext r' -> r = r'.
  Proof. congruence. Qed.
  Lemma ri_upd r t fr p rest s lg g a' : ri r -> stack t (rrun r) = fr :: rest -> (forall id a, In (id, a) a' -> id < length (rhist r)) ->
              ri (RCfg s (put t (Frame (f_id fr) (f_op fr) p :: rest) (rrun r)) (rhist r ++ lg) g a').
  Proof.
    intros R St La. constructor; cbn [rsh rrun rhist rgiven answers].
      - intros t' d fr'. rewrite stack_put. destruct (Nat.eqb_spec t' t) as [->|N].
        + rewrite frame_push. destruct (Nat.eqb_spec d (length rest)) as [->|].
          * intros [= <-]. simpl. rewrite nth_error_app1; [apply (ri_ids _ R); rewrite St; apply top_frame|].
            apply nth_error_Some. rewrite (ri_ids _ R t (length rest) fr); [discriminate|]. rewrite St. apply top_frame.
          * intros H. assert (K : frame_at (stack t (rrun r)) d = Some fr') by (rewrite St, frame_push; destruct (Nat.eqb_spec d (length rest)); [contradiction|assumption]).
            apply (ri_ids _ R) in K. rewrite nth_error_app1; [assumption|]. apply nth_error_Some. congruence.
        + intros H. apply (ri_ids _ R) in H. rewrite nth_error_app1; [assumption|]. apply nth_error_Some. congruence.
      - intros id a H. rewrite app_length. specialize (La id a H). lia.
      - intros t' s' H. apply put_in in H as [[-> H]|H]; [discriminate|]. eapply ri_ne; eauto.
  Qed.
  Lemma ri_pop r t fr rest s e g : ri r -> stack t (rrun r) = fr :: rest -> ri (RCfg s (put t rest (rrun r)) (rhist r ++ [e]) g (answers r)).
  Proof.
    intros R St. constructor; cbn [rsh rrun rhist rgiven answers].
      - intros t' d fr'. rewrite stack_put. intros H. assert (K : frame_at (stack t' (rrun r)) d = Some fr').
        { destruct (Nat.eqb_spec t' t) as [->|N]; [|assumption]. rewrite St, frame_push. pose proof (frame_len _ _ _ H). destruct (Nat.eqb_spec d (length rest)); [lia|assumption]. }
        apply (ri_ids _ R) in K. rewrite nth_error_app1; [assumption|]. apply nth_error_Some. congruence.
      - intros id a H. rewrite app_length. pose proof (ri_log _ R id a H). lia.
      - intros t' s' H. apply put_in in H as [[-> H]|H]; [assumption|]. eapply ri_ne; eauto.
  Qed.
  Lemma ri_step r l r' : ri r -> rstep E r l = RNext r' -> ri r'.
  Proof.
    intros R S.
    assert (Upd := fun t fr p rest s lg g a' => ri_upd r t fr p rest s lg g a' R). assert (Pop := fun t fr rest s e g => ri_pop r t fr rest s e g R).
    destruct l as [t o|t|t a| |n]; cbv beta iota zeta delta [rstep] in S.
    - destruct (user_turn _ && _) in S; [|discriminate]. apply rnext_inj in S; subst r'. constructor; cbn [rsh rrun rhist rgiven answers].
      + intros t' d fr. rewrite stack_put. assert (Old : forall t' d fr, frame_at (stack t' (rrun r)) d = Some fr ->
          nth_error (rhist r ++ [NInv (length (rhist r)) t (length (stack t (rrun r))) o]) (f_id fr) = Some (NInv (f_id fr) t' d (f_op fr))).
        { intros t1 d1 fr1 H. apply (ri_ids _ R) in H. rewrite nth_error_app1; [assumption|]. apply nth_error_Some. congruence. }
        destruct (Nat.eqb_spec t' t) as [->|N]; [|apply Old]. rewrite frame_push. destruct (Nat.eqb_spec d (length (stack t (rrun r)))) as [->|]; [|apply Old].
        intros [= <-]. simpl. rewrite nth_error_app2, Nat.sub_diag by lia. reflexivity.
      + intros id a H. rewrite app_length. pose proof (ri_log _ R id a H). lia.
      + intros t' s' H. apply put_in in H as [[-> H]|H]; [discriminate|]. eapply ri_ne; eauto.
    - destruct (stack t (rrun r)) as [|fr rest] eqn:St; [discriminate|]. destruct (f_prog fr) as [v|m|a k|a again k|k] eqn:P; [| | | |discriminate].
      + apply rnext_inj in S; subst r'. eapply Pop; eauto.
      + apply rnext_inj in S; subst r'. eapply Pop; eauto.
      + destruct (exec _ _ _ _) as [y s lg|f]; [|discriminate]. apply rnext_inj in S; subst r'. unfold rafter. eapply Upd; eauto. apply R.
      + destruct (exec _ _ _ _) as [y s lg|f]; [|discriminate]. destruct (again y); apply rnext_inj in S; subst r'; [assumption|]. unfold rafter. eapply Upd; eauto. apply R.
    - destruct (stack t (rrun r)) as [|[id o [v|m|a' k|a' again k|k]] rest] eqn:St; try discriminate. apply rnext_inj in S; subst r'.
      rewrite <- (app_nil_r (rhist r)). apply (Upd t (Frame id o (RClo k)) (k a) rest); [assumption|].
      intros j b H. apply in_app_or in H as [H|[H|[]]]; [eapply ri_log; eauto|]. injection H as <- <-.
      apply nth_error_Some. pose proof (ri_ids _ R t (length rest) (Frame id o (RClo k))) as K. rewrite St, top_frame in K. specialize (K eq_refl). cbn [f_id] in K. congruence.
    - destruct (rrun r) eqn:Q; [|discriminate]. destruct (clear _); [|apply rnext_inj in S; subst r'; assumption|discriminate]. apply rnext_inj in S; subst r'. constructor; cbn [rsh rrun rhist rgiven answers]; try contradiction.
      + intros t d fr. unfold frame_at. destruct d; discriminate.
      + intros id a H. rewrite app_length. pose proof (ri_log _ R id a H). lia.
    - destruct (rrun r) eqn:Q; [|discriminate]. destruct (reserve_maximum_capacity _ _ _) as [[m s]| |]; [|apply rnext_inj in S; subst r'; assumption|discriminate]. apply rnext_inj in S; subst r'. constructor; cbn [rsh rrun rhist rgiven answers]; try contradiction.
      + intros t d fr. unfold frame_at. destruct d; discriminate.
      + intros id a H. rewrite app_length. pose proof (ri_log _ R id a H). lia.
  Qed.

  Lemma flat_acc w id t d lg : map (flat_event w) (map (NAcc id t d) lg) = map (EAcc id (agent t d)) lg.
  Proof. now rewrite map_map. Qed.
  Lemma matches_fresh w l id a fr x : f_id fr <> id -> matches w l fr x -> matches w (l ++ [(id, a)]) fr x.
  Proof. intros N (A & B & C). split; [assumption|]. split; [assumption|]. rewrite asked_snoc. destruct (Nat.eqb_spec id (f_id fr)); [congruence|assumption]. Qed.

  (** the call on top of a stack changes its program *)
  Lemma sim_upd w r c t fr rest x p q s lg : sim w r c -> stack t (rrun r) = fr :: rest -> lookup (agent t (length rest)) (run c) = Some x ->
    matches w (answers r) (Frame (f_id fr) (f_op fr) p) (Call (c_id x) (c_op x) q) ->
    sim w (rafter t r fr rest p s lg) (after (agent t (length rest)) c x q s lg).
  Proof.
    intros S St Lk M. constructor; cbn [rafter after rsh rrun rhist rgiven answers sh run hist given].
    - reflexivity.
    - rewrite map_app, flat_acc, (sm_hist _ _ _ S). f_equal. destruct M as (A & _). cbn [c_id f_id] in A. now rewrite A.
    - apply S.
    - cbn [map fst]. constructor; [apply remove_notin|apply remove_nodup]; apply S.
    - intros t' d. rewrite stack_put. cbn [lookup]. pose proof (sm_run _ _ _ S t' d) as Old.
      destruct (Nat.eqb_spec t' t) as [->|N].
      + rewrite frame_push. destruct (Nat.eqb_spec d (length rest)) as [->|Nd].
        * now rewrite Nat.eqb_refl.
        * destruct (Nat.eqb_spec (agent t d) (agent t (length rest))) as [e|Ne]; [apply agent_inj in e; tauto|].
          rewrite lookup_remove_other by assumption. rewrite St, frame_push in Old. destruct (Nat.eqb_spec d (length rest)); [contradiction|assumption].
      + destruct (Nat.eqb_spec (agent t' d) (agent t (length rest))) as [e|Ne]; [apply agent_inj in e; tauto|].
        now rewrite lookup_remove_other by assumption.
  Qed.
  (** the call on top of a stack ends *)
  Lemma sim_pop w r c t fr rest e g : sim w r c -> stack t (rrun r) = fr :: rest ->
    sim w (RCfg (rsh r) (put t rest (rrun r)) (rhist r ++ [e]) (rgiven r ++ g) (answers r))
          (Cfg (sh c) (remove (agent t (length rest)) (run c)) (hist c ++ [flat_event w e]) (given c ++ g)).
  Proof.
    intros S St. constructor; cbn [rsh rrun rhist rgiven answers sh run hist given].
    - apply S.
    - now rewrite map_app, (sm_hist _ _ _ S).
    - now rewrite (sm_given _ _ _ S).
    - apply remove_nodup, S.
    - intros t' d. rewrite stack_put. pose proof (sm_run _ _ _ S t' d) as Old. destruct (Nat.eqb_spec t' t) as [->|N].
      + destruct (Nat.eq_dec d (length rest)) as [->|Nd].
        * rewrite frame_none by lia. rewrite lookup_remove_same by apply S. exact I.
        * rewrite lookup_remove_other by (intros e'; apply agent_inj in e'; tauto).
          rewrite St, frame_push in Old. destruct (Nat.eqb_spec d (length rest)); [contradiction|assumption].
      + rewrite lookup_remove_other by (intros e'; apply agent_inj in e'; tauto). assumption.
  Qed.

  (** One step of the re-entrant machine: no step, or the same step of the flat one. *)
  Definition flat_label w r (l : rlabel V) : option (label V) :=
    match l with
    | NLInv t o => Some (LInv (agent t (length (stack t (rrun r)))) (with_answers (w (length (rhist r))) o))
    | NLStep t => Some (LStep (agent t (length (tl (stack t (rrun r))))))
    | NLAns _ _ => None
    | NLClear => Some LClear
    | NLReserve n => Some (LReserve n)
    end.
  Lemma sim_step w r c l r' : ri r -> sim w r c -> consistent w (answers r') -> rstep E r l = RNext r' ->
    match flat_label w r l with
    | None => sim w r' c
    | Some l' => exists c', step E c l' = Next c' /\ sim w r' c'
    end.
  Proof.
    intros R S Co St. destruct l as [t o|t|t a| |n]; cbv beta iota zeta delta [rstep] in St; cbn [flat_label].
    - destruct (user_turn _ && _) eqn:U in St; [|discriminate]. apply rnext_inj in St. subst r'. apply andb_prop in U as [U G].
      pose proof (sm_run _ _ _ S t (length (stack t (rrun r)))) as Top. rewrite frame_none in Top by lia. cbn [step].
      destruct (lookup _ _) eqn:Lk; [contradiction|]. rewrite (sm_given _ _ _ S).
      rewrite (same_grant o _ (fun _ => None)), G. eexists. split; [reflexivity|].
      assert (Len : length (hist c) = length (rhist r)) by (rewrite (sm_hist _ _ _ S); apply map_length).
      constructor; cbn [rsh rrun rhist rgiven answers sh run hist given].
      + apply S.
      + rewrite map_app, Len, (sm_hist _ _ _ S). reflexivity.
      + reflexivity.
      + cbn [map fst]. constructor; [now apply lookup_none|apply S].
      + intros t' d. rewrite stack_put. cbn [lookup]. pose proof (sm_run _ _ _ S t' d) as Old.
        assert (Mt : matches w (answers r) (Frame (length (rhist r)) o (rop_prog E o)) (Call (length (hist c)) (with_answers (w (length (rhist r))) o) (op_prog E (with_answers (w (length (rhist r))) o)))).
        { split; [assumption|]. split; [reflexivity|]. cbn [f_id f_prog c_prog]. rewrite asked_fresh by apply R. cbn [dropw]. apply agr_op. }
        destruct (Nat.eqb_spec t' t) as [->|N].
        * rewrite frame_push. destruct (Nat.eqb_spec d (length (stack t (rrun r)))) as [->|Nd].
          -- rewrite Nat.eqb_refl. exact Mt.
          -- destruct (Nat.eqb_spec (agent t d) (agent t (length (stack t (rrun r))))) as [e|Ne]; [apply agent_inj in e; tauto|]. exact Old.
        * destruct (Nat.eqb_spec (agent t' d) (agent t (length (stack t (rrun r))))) as [e|Ne]; [apply agent_inj in e; tauto|]. exact Old.
    - destruct (stack t (rrun r)) as [|fr rest] eqn:Sk; [discriminate|]. cbn [tl step]. unfold step_thread.
      pose proof (sm_run _ _ _ S t (length rest)) as Top. rewrite Sk, top_frame in Top. destruct (lookup _ _) as [x|] eqn:Lk; [|contradiction].
      pose proof Top as (Hid & Hop & Ha). apply agr_inv in Ha. destruct (f_prog fr) as [v|m|a k|a again k|k] eqn:P; [| | | |discriminate].
      + destruct Ha as (b & -> & <-). apply rnext_inj in St. subst r'. eexists. split; [reflexivity|].
        rewrite Hid. exact (sim_pop w r c t fr rest (NRet (f_id fr) t (length rest) v) (grants v) S Sk).
      + rewrite Ha. apply rnext_inj in St. subst r'. eexists. split; [reflexivity|]. rewrite Hid.
        rewrite <- (app_nil_r (rgiven r)), <- (app_nil_r (given c)).
        exact (sim_pop w r c t fr rest (NPan (f_id fr) t (length rest) m) [] S Sk).
      + destruct Ha as (k' & -> & Hk). rewrite (sm_sh _ _ _ S). destruct (exec _ _ _ _) as [y s lg|f]; [|discriminate]. apply rnext_inj in St. subst r'.
        eexists. split; [reflexivity|]. apply sim_upd; auto. split; [assumption|]. split; [assumption|]. exact (Hk y).
      + destruct Ha as (k' & -> & Hk). rewrite (sm_sh _ _ _ S). destruct (exec _ _ _ _) as [y s lg|f]; [|discriminate].
        destruct (again y); apply rnext_inj in St; subst r'; eexists; (split; [reflexivity|]); [assumption|].
        apply sim_upd; auto. split; [assumption|]. split; [assumption|]. exact (Hk y).
    - destruct (stack t (rrun r)) as [|[id o [v|m|a' k|a' again k|k]] rest] eqn:Sk; try discriminate. apply rnext_inj in St. subst r'.
      cbn [answers] in Co. apply consistent_snoc in Co as [Co Ca].
      constructor; cbn [rsh rrun rhist rgiven answers].
      1-4: apply S.
      intros t' d. rewrite stack_put. pose proof (sm_run _ _ _ S t' d) as Old.
      assert (TopF : frame_at (stack t (rrun r)) (length rest) = Some (Frame id o (RClo k))) by (rewrite Sk; apply top_frame).
      assert (Other : (t', d) <> (t, length rest) ->
                match frame_at (stack t' (rrun r)) d, lookup (agent t' d) (run c) with
                | None, None => True | Some fr, Some x => matches w (answers r ++ [(id, a)]) fr x | _, _ => False end).
      { intros N. destruct (frame_at (stack t' (rrun r)) d) as [fr|] eqn:Hf; destruct (lookup _ _) as [x|]; try contradiction; try exact I.
        apply matches_fresh; [|assumption]. intros e. apply N. destruct (ids_differ r t' d fr t (length rest) _ R Hf TopF e) as [-> ->]. reflexivity. }
      destruct (Nat.eqb_spec t' t) as [->|N]; [|apply Other; congruence].
      rewrite frame_push. destruct (Nat.eqb_spec d (length rest)) as [->|Nd].
      + rewrite TopF in Old. destruct (lookup _ _) as [x|]; [|contradiction]. destruct Old as (A & B & C). split; [assumption|]. split; [assumption|].
        cbn [f_id f_prog] in *. apply agr_inv in C. rewrite dropw_0, Ca, dropw_later in C. rewrite asked_snoc, Nat.eqb_refl. exact C.
      + assert (Q : (t, d) <> (t, length rest)) by congruence. specialize (Other Q). rewrite Sk, frame_push in Other.
        destruct (Nat.eqb_spec d (length rest)); [contradiction|assumption].
    - destruct (rrun r) eqn:Q; [|discriminate]. cbn [step]. rewrite (idle_sim _ _ _ S Q), (sm_sh _ _ _ S).
      destruct (clear _); [| |discriminate]; apply rnext_inj in St; subst r'; eexists; (split; [reflexivity|]); [|assumption].
      constructor; cbn [rsh rrun rhist rgiven answers sh run hist given]; auto; try constructor.
      + now rewrite map_app, (sm_hist _ _ _ S).
      + intros t d. unfold frame_at. simpl. destruct d; exact I.
    - destruct (rrun r) eqn:Q; [|discriminate]. cbn [step]. rewrite (idle_sim _ _ _ S Q), (sm_sh _ _ _ S).
      destruct (reserve_maximum_capacity _ _ _) as [[m s]| |]; [| |discriminate]; apply rnext_inj in St; subst r'; eexists; (split; [reflexivity|]); [|assumption].
      constructor; cbn [rsh rrun rhist rgiven answers sh run hist given]; auto; try constructor.
      + now rewrite map_app, (sm_hist _ _ _ S).
      + apply S.
      + intros t d. unfold frame_at. simpl. destruct d; exact I.
  Qed.

  Lemma log_grows r l r' : rstep E r l = RNext r' -> exists x, answers r' = answers r ++ x.
  Proof.
    intros S. destruct l as [t o|t|t a| |n]; cbv beta iota zeta delta [rstep] in S.
    all: repeat (match type of S with context [match ?e with _ => _ end] => destruct e end; try discriminate).
    all: apply rnext_inj in S; subst r'.
    all: try (exists []; cbn [rafter answers]; now rewrite app_nil_r).
    eexists. reflexivity.
  Qed.
  Lemma consistent_app w l x : consistent w (l ++ x) -> consistent w l.
  Proof.
    induction x as [|[j a] x IH] using rev_ind; [now rewrite app_nil_r|]. rewrite app_assoc. intros H. apply IH. now apply consistent_snoc in H.
  Qed.

  Lemma sim_client w r c l : ri r -> sim w r c -> rclient E ro nl (length l0) r l ->
    match flat_label w r l with None => True | Some l' => client E ro nl (length l0) c l' end.
  Proof.
    intros R S H. destruct l as [t o|t|t a| |n]; cbn [flat_label]; try exact I.
    - destruct H as [A B]. split; [eapply same_allowed; eassumption|]. rewrite (sm_hist _ _ _ S).
      rewrite (same_requested w (answered (answers r))), (same_request o _ (fun _ => None)). exact B.
    - cbn [client]. intros O. apply H. unfold flatten. rewrite (sm_hist _ _ _ S) in O. eapply same_overrun; eassumption.
  Qed.

  Lemma ri_start : ri (rstart l0 c0 m0).
  Proof.
    constructor; cbn [rstart rrun rhist answers]; try contradiction. intros t d fr. unfold frame_at. destruct d; discriminate.
  Qed.
  Lemma sim_start w : sim w (rstart l0 c0 m0) (start l0 c0 m0).
  Proof.
    constructor; cbn [rstart start rsh rrun rhist rgiven answers sh run hist given]; auto; try constructor.
    intros t d. unfold frame_at. simpl. destruct d; exact I.
  Qed.

  Theorem simulation r : rexecution E ro nl l0 c0 m0 r ->
    ri r /\ forall w, consistent w (answers r) -> exists c, execution E ro nl l0 c0 m0 c /\ sim w r c.
  Proof.
    intros (EO & CO & Le & Lt & Re). induction Re as [|r l r' Re [R IH] P St].
    - split; [apply ri_start|]. intros w _. exists (start l0 c0 m0). split; [|apply sim_start].
      refine (conj EO (conj CO (conj Le (conj Lt _)))). constructor.
    - split; [eapply ri_step; eassumption|]. intros w Co.
      destruct (IH w) as (c & X & S).
      { destruct (log_grows _ _ _ St) as [x Q]. rewrite Q in Co. now apply consistent_app in Co. }
      pose proof (sim_step w r c l r' R S Co St) as H. pose proof (sim_client w r c l R S P) as Cl.
      destruct (flat_label w r l) as [l'|]; [|eauto]. destruct H as (c' & Sc & Sm). exists c'. split; [|assumption].
      destruct X as (_ & _ & _ & _ & X). refine (conj EO (conj CO (conj Le (conj Lt _)))). econstructor; eassumption.
  Qed.

  (** No fault: the fault would be one of the flat machine. *)
  Theorem sim_fault w r c l f : sim w r c -> rstep E r l = RFault f -> exists l', flat_label w r l = Some l' /\ step E c l' = Fault f.
  Proof.
    intros S St. destruct l as [t o|t|t a| |n]; cbv beta iota zeta delta [rstep] in St; cbn [flat_label].
    - destruct (user_turn _ && _) in St; discriminate.
    - destruct (stack t (rrun r)) as [|fr rest] eqn:Sk; [discriminate|]. eexists. split; [reflexivity|]. cbn [tl step]. unfold step_thread.
      pose proof (sm_run _ _ _ S t (length rest)) as Top. rewrite Sk, top_frame in Top. destruct (lookup _ _) as [x|] eqn:Lk; [|contradiction].
      destruct Top as (_ & _ & Ha). apply agr_inv in Ha. destruct (f_prog fr) as [v|m|a k|a again k|k] eqn:P; try discriminate.
      + destruct Ha as (k' & -> & _). rewrite (sm_sh _ _ _ S). destruct (exec _ _ _ _); congruence.
      + destruct Ha as (k' & -> & _). rewrite (sm_sh _ _ _ S). destruct (exec _ _ _ _) as [y s lg|f']; [destruct (again y)|]; congruence.
    - destruct (stack t (rrun r)) as [|[id o [v|m|a' k|a' again k|k]] rest]; discriminate.
    - destruct (rrun r) eqn:Q; [|discriminate]. eexists. split; [reflexivity|]. cbn [step]. rewrite (idle_sim _ _ _ S Q), (sm_sh _ _ _ S).
      destruct (clear _); congruence.
    - destruct (rrun r) eqn:Q; [|discriminate]. eexists. split; [reflexivity|]. cbn [step]. rewrite (idle_sim _ _ _ S Q), (sm_sh _ _ _ S).
      destruct (reserve_maximum_capacity _ _ _) as [[m s]| |]; congruence.
  Qed.
End Sim.
