(** * A call that has taken effect can always be completed. *)

From Coq Require Import List Arith Bool Lia.
From Verif.Model Require Import Prog Mem Deps State Elem Vec Excl Machine.
From Verif Require Import Client Spec Seq.
From Verif.Logic Require Import Inv WP Post Specs Ops Sound Shape Clients Hist Facts.
Import ListNotations.
Local Arguments Nat.leb : simpl never.
Local Arguments Nat.ltb : simpl never.
Local Arguments Nat.eqb : simpl never.
Local Arguments Nat.add : simpl never.
Local Arguments Nat.sub : simpl never.

Section Progs.
  Context {V : Type} (E : env V).
  Notation prog := (prog V).

  (** no more waiting *)
  Fixpoint straight {R} (p : prog R) : Prop :=
    match p with
    | Ret _ | Pan _ => True
    | Act _ k => forall x, straight (k x)
    | Spin _ _ _ => False
    end.
  Definition flagged (a : act V) : bool :=
    match a with RdEnd _ | WrEnd _ _ | SwapEnd _ _ | InitEnd _ _ | StoreSt _ _ => true | _ => false end.
  (** no more waiting after the first flagged access *)
  Fixpoint tailed {R} (p : prog R) : Prop :=
    match p with
    | Ret _ | Pan _ => True
    | Act a k => if flagged a then forall x, straight (k x) else forall x, tailed (k x)
    | Spin a _ k => flagged a = false /\ forall x, tailed (k x)
    end.
  Lemma straight_tailed {R} (p : prog R) : straight p -> tailed p.
  Proof.
    induction p as [r|m|a k IH|a ag k IH]; simpl; auto; [|tauto]. intros H. destruct (flagged a); auto.
  Qed.

  Notation quiet := (shape (fun a : act V => flagged a = false) (fun _ => True)).
  Lemma quiet_bind {A B} (p : prog A) (f : A -> prog B) : quiet p -> (forall x, tailed (f x)) -> tailed (bind p f).
  Proof.
    intros H Hf. induction p as [r|m|a k IH|a ag k IH]; simpl in *; auto; destruct H as [H1 H2].
    - rewrite H1. auto.
    - split; auto.
  Qed.
  Lemma straight_bind {A B} (p : prog A) (f : A -> prog B) : straight p -> (forall x, straight (f x)) -> straight (bind p f).
  Proof. intros H Hf. induction p as [r|m|a k IH|a ag k IH]; simpl in *; auto. Qed.
  Lemma tailed_bind {A B} (p : prog A) (f : A -> prog B) : tailed p -> (forall x, straight (f x)) -> tailed (bind p f).
  Proof.
    intros H Hf. induction p as [r|m|a k IH|a ag k IH]; simpl in *; auto.
    - now apply straight_tailed.
    - destruct (flagged a); auto. intros x. now apply straight_bind.
    - destruct H. split; auto.
  Qed.
  Lemma straight_chk {A} m (o : option A) : straight (chk (V:=V) m o).
  Proof. destruct o; exact I. Qed.

  Lemma sh_chk_any P {A} m (o : option A) : shape P (fun _ => True) (chk (V:=V) m o).
  Proof. destruct o; exact I. Qed.

  Local Ltac q := repeat (split; [reflexivity|intros ?]); try exact I.
  Lemma q_count i k : quiet (count_pushed i k).
  Proof.
    revert i. induction k as [|k IH]; intros i; cbn [count_pushed]; [exact I|].
    apply shape_bindT; [q|]. intros [|]; [|exact I]. apply shape_bindT; [apply IH|]. intros; exact I.
  Qed.
  Lemma q_len : quiet vec_len.
  Proof.
    split; [reflexivity|intros x]. split; [reflexivity|intros x0]. split; [reflexivity|intros x1]. split; [reflexivity|intros []].
    cbn [bind]. apply shape_bindT; [apply q_count|]. intros n. q.
  Qed.
  Lemma q_reserved : quiet reserved_len.
  Proof. q. Qed.
  Lemma q_get i : quiet (core_get i).
  Proof. q. Qed.
  Lemma q_spin i s : quiet (spin_handle i s).
  Proof. q. Qed.
  Lemma q_mut i s : quiet (vec_mut_handle E i s).
  Proof.
    apply shape_bindT; [apply q_len|]. intros n. destruct (i <? n); [|exact I]. apply shape_bindT; [apply q_get|].
    intros [e|]; [|exact I]. apply shape_bindT; [|intros; exact I]. unfold option_mut_handle. destruct (hspin E); q.
  Qed.
  Lemma q_single i : quiet (single_item_as_ref i).
  Proof.
    split; [reflexivity|]. intros m. simpl. destruct (i <? m); [|exact I]. split; [reflexivity|]. intros c.
    destruct (write_permit i c); try exact I. split; [reflexivity|]. intros [|]; simpl; auto.
  Qed.
  Lemma t_init i v : tailed (initialize_unchecked i v).
  Proof. simpl. auto. Qed.
  Lemma t_map {U} i (f : V -> option U) : tailed (option_map i f).
  Proof.
    apply quiet_bind; [apply q_spin|]. intros [|]; [|exact I]. simpl. intros _ v _. destruct (f v); exact I.
  Qed.
  Lemma t_replace i v : tailed (option_replace i v).
  Proof. apply quiet_bind; [apply q_spin|]. intros [|]; simpl; auto. Qed.
  Lemma t_set i v : tailed (option_set_some i v).
  Proof. apply quiet_bind; [apply q_spin|]. intros [|]; simpl; auto. Qed.
  Lemma t_update i f : tailed (option_update i f).
  Proof. apply quiet_bind; [apply q_spin|]. intros [|]; simpl; auto. intros _ old _. destruct (snd (f old)); exact I. Qed.
  Lemma t_swap i j : tailed (vec_swap E i j).
  Proof.
    apply quiet_bind; [apply q_mut|]. intros oi. apply quiet_bind; [apply q_mut|]. intros oj.
    destruct oi, oj; simpl; auto.
  Qed.
  Lemma t_get_cloned i : tailed (vec_get_cloned i).
  Proof.
    apply quiet_bind; [apply q_reserved|]. intros n. destruct (i <? n); [|exact I].
    apply quiet_bind; [apply q_get|]. intros [e|]; [apply t_map|exact I].
  Qed.
  Lemma q_grow n : quiet (grow_to n).
  Proof. split; [reflexivity|]. intros [|]; simpl; auto. Qed.
  Lemma q_buffer b n : quiet (n_items_buffer E b n).
  Proof.
    unfold n_items_buffer. destruct (n =? 0); [exact I|]. apply shape_bindT; [apply sh_chk_any|]. intros e.
    apply shape_bindT; [apply sh_chk_any|]. intros l. split; [reflexivity|]. intros m. simpl.
    destruct (l <? m); [|exact I]. split; [reflexivity|]. intros c. destruct (write_permit_n_items b l c); try exact I. apply q_grow.
  Qed.
  Lemma s_write n : forall i it, straight (write_items i n it).
  Proof.
    induction n as [|n IH]; intros i it; cbn [write_items]; [exact I|]. destruct it as [|[v|] it]; try exact I.
    apply straight_bind; [simpl; auto|]. intros _. apply IH.
  Qed.
  (** calls that do not wait after their first effect *)
  Definition direct (o : op V) : bool := atomic o || grows o.
  Lemma op_tailed o : direct o = true -> tailed (op_prog E o).
  Proof.
    intros A. destruct o; try discriminate; cbn [op_prog]; unfold fmap; try (apply tailed_bind; [|intros; exact I]).
    - apply quiet_bind; [q|]. intros b. apply quiet_bind; [apply q_single|]. intros _. simpl. auto.
    - apply quiet_bind; [q|]. intros b. destruct (f b); [|exact I]. apply (quiet_bind (single_item_as_ref b)); [apply q_single|]. intros _. simpl. auto.
    - apply quiet_bind; [q|]. intros b. apply quiet_bind; [apply q_buffer|]. intros _.
      apply straight_tailed, straight_bind; [apply s_write|]. intros; exact I.
    - apply quiet_bind; [q|]. intros b. apply quiet_bind; [apply q_buffer|]. intros _.
      apply straight_tailed, straight_bind; [apply straight_chk|]. intros [m it]. simpl. destruct (m =? n); [|exact I].
      apply straight_bind; [apply s_write|]. intros; exact I.
    - apply quiet_bind; [q|]. intros b. apply quiet_bind; [apply q_buffer|]. intros _.
      apply straight_tailed, straight_bind; [apply s_write|]. intros; exact I.
    - apply t_get_cloned.
    - apply t_get_cloned.
    - apply t_swap.
    - destruct o; cbn [eop_prog]; unfold fmap; (apply tailed_bind; [|intros; exact I]).
      + apply tailed_bind; [apply t_map|intros; apply straight_chk].
      + apply tailed_bind; [apply t_map|intros; apply straight_chk].
      + apply tailed_bind; [apply t_map|intros; apply straight_chk].
      + apply tailed_bind; [apply t_replace|intros; apply straight_chk].
      + apply tailed_bind; [apply t_set|]. intros [|]; exact I.
      + apply tailed_bind; [apply t_update|]. intros [|]; exact I.
      + apply tailed_bind; [apply t_map|intros; apply straight_chk].
    - destruct o; try discriminate; cbn [sop_prog]; unfold fmap; (apply tailed_bind; [|intros; exact I]).
      + unfold slice_get_cloned. destruct (i <? sl_len x); [|exact I]. apply quiet_bind; [apply q_get|]. intros [e|]; [|exact I].
        apply tailed_bind; [|intros; exact I]. apply tailed_bind; [apply t_map|intros; apply straight_chk].
      + unfold slice_swap. destruct (slice_idx x i), (slice_idx x j); try exact I. apply t_swap.
  Qed.
  Lemma exec_effect t (a : act V) s y s' l z : exec E t a s = Done y s' l -> In z l -> is_effect z = true -> flagged a = true.
  Proof.
    destruct a; simpl; unfold with_slot; intros H;
      repeat match goal with
             | H : context [if ?b then _ else _] |- _ => let Q := fresh "Q" in destruct b eqn:Q
             | H : context [match ?b with _ => _ end] |- _ => let Q := fresh "Q" in destruct b eqn:Q
             end; try discriminate; injection H as <- <- <-; simpl; auto; intros [<-|[]]; discriminate.
  Qed.
End Progs.

Section Complete.
  Context {V : Type} (E : env V) (ro nl : bool) (l0 : list V) (c0 m0 : nat).
  Notation execution := (execution E ro nl l0 c0 m0).
  Implicit Types c : cfg V.

  Definition has_effect id (h : list (event V)) : Prop := exists z, In z (accs id h) /\ is_effect z = true.
  Definition settled c : Prop := forall t x, lookup t (run c) = Some x -> direct (c_op x) = true ->
    tailed (c_prog x) /\ (has_effect (c_id x) (hist c) -> straight (c_prog x)).

  Lemma accs_map id id' t (l : list (acc V)) : accs id (map (EAcc id' t) l) = if id' =? id then l else [].
  Proof.
    induction l as [|x l IH]; [simpl; now destruct (id' =? id)|].
    change (map (EAcc id' t) (x :: l)) with ([EAcc id' t x] ++ map (EAcc id' t) l). rewrite accs_app, IH. unfold accs. simpl.
    destruct (id' =? id); reflexivity.
  Qed.
  Lemma accs_snoc id (h : list (event V)) e : (forall t z, e <> EAcc id t z) -> accs id (h ++ [e]) = accs id h.
  Proof.
    intros N. rewrite accs_app. destruct e as [| | |id' t z| |]; try apply app_nil_r.
    simpl. destruct (Nat.eqb_spec id' id) as [->|]; [now destruct (N t z)|apply app_nil_r].
  Qed.

  Lemma settled_after c t x a k y s' l : execution c -> settled c -> lookup t (run c) = Some x ->
    (c_prog x = Act a k \/ exists ag, c_prog x = Spin a ag k) -> exec E t a (sh c) = Done y s' l ->
    settled (after t c x (k y) s' l).
  Proof.
    intros X St Lk Hp Ex u z Hz At. destruct (execution_world _ _ _ _ _ _ c X) as (snap & g & W). pose proof (w_gi _ _ _ _ _ _ _ _ W) as G.
    rewrite (after_lookup t c x _ _ _ u Lk) in Hz. destruct (Nat.eqb_spec u t) as [e|N].
    - subst u. injection Hz as <-. simpl in At |- *. destruct (St t x Lk At) as [T S]. split.
      + destruct Hp as [Hp|(ag & Hp)]; rewrite Hp in T; simpl in T.
        * destruct (flagged a); [apply straight_tailed|]; apply T.
        * apply T.
      + intros (v & Hv & Fv). rewrite accs_app, accs_map, Nat.eqb_refl in Hv. apply in_app_iff in Hv. destruct Hv as [Hv|Hv].
        * assert (Q : has_effect (c_id x) (hist c)) by (exists v; auto). specialize (S Q).
          destruct Hp as [Hp|(ag & Hp)]; rewrite Hp in S; simpl in S; [apply S|contradiction].
        * pose proof (exec_effect E _ _ _ _ _ _ _ Ex Hv Fv) as F.
          destruct Hp as [Hp|(ag & Hp)]; rewrite Hp in T; simpl in T; [rewrite F in T; apply T|]. destruct T. congruence.
    - destruct (St u z Hz At) as [T S]. split; [exact T|]. intros (v & Hv & Fv). apply S. exists v. split; [|exact Fv].
      simpl in Hv. rewrite accs_app, accs_map in Hv. destruct (Nat.eqb_spec (c_id x) (c_id z)) as [e|]; [|now rewrite app_nil_r in Hv].
      destruct (same_call _ _ _ _ _ _ _ _ t x u z G Lk Hz); [auto|contradiction].
  Qed.

  Lemma settled_step c l c' : execution c -> settled c -> client E ro nl (length l0) c l -> step E c l = Next c' -> settled c'.
  Proof.
    intros X St C S. destruct (execution_world _ _ _ _ _ _ c X) as (snap & g & W). pose proof (w_gi _ _ _ _ _ _ _ _ W) as G.
    pose proof (gi_nodup _ _ _ _ _ _ _ _ G) as Nd.
    assert (K : forall t e gv, (forall id u z, e <> EAcc id u z) -> settled (Cfg (sh c) (remove t (run c)) (hist c ++ [e]) gv)).
    { intros t e gv Ne u z Hz At. simpl in *. apply (remove_lookup _ _ _ _ Nd) in Hz. destruct (St u z Hz At) as [T Q].
      split; [exact T|]. intros (v & Hv & Fv). apply Q. exists v. rewrite accs_snoc in Hv by (intros; apply Ne). auto. }
    destruct l as [t o|t| |k]; simpl in S.
    - destruct (lookup t (run c)) eqn:Lk; [discriminate|]. destruct (has_grant o (given c)); [|discriminate]. injection S as <-.
      intros u z Hz At. simpl in Hz. destruct (Nat.eqb_spec u t) as [e|N].
      + subst u. injection Hz as <-. simpl in *. split; [now apply op_tailed|]. intros (v & Hv & _).
        rewrite accs_snoc in Hv by discriminate. rewrite (accs_fresh _ _ _ _ _ _ _ (gi_expl _ _ _ _ _ _ _ _ G)) in Hv. destruct Hv.
      + destruct (St u z Hz At) as [T Q]. split; [exact T|]. intros (v & Hv & Fv). apply Q. exists v.
        simpl in Hv. rewrite accs_snoc in Hv by discriminate. auto.
    - unfold step_thread in S. destruct (lookup t (run c)) as [x|] eqn:Lk; [|discriminate].
      destruct (c_prog x) as [r|m|a k|a ag k] eqn:Hp.
      + injection S as <-. apply K. discriminate.
      + injection S as <-. apply K. discriminate.
      + destruct (exec E t a (sh c)) eqn:Ex; [|discriminate]. injection S as <-. eapply settled_after; eauto.
      + destruct (exec E t a (sh c)) eqn:Ex; [|discriminate]. destruct (ag x0); injection S as <-; [assumption|]. eapply settled_after; eauto.
    - destruct (run c) eqn:R; [|discriminate]. destruct (clear (sh c)); try discriminate; injection S as <-.
      + intros u z Hz. discriminate.
      + assumption.
    - destruct (run c) eqn:R; [|discriminate]. destruct (reserve_maximum_capacity E k (sh c)) as [[]| |]; try discriminate; injection S as <-.
      + intros u z Hz. discriminate.
      + assumption.
  Qed.
  Lemma execution_settled c : execution c -> settled c.
  Proof.
    intros (X1 & X2 & X3 & X4 & R). induction R as [|c l c' R IH C S]; [intros t x H; discriminate|].
    eapply settled_step; eauto. repeat (split; [assumption|]). assumption.
  Qed.

  (** ** completing *)
  Definition grown c c' : Prop :=
    reach E (client E ro nl (length l0)) c c' /\
    exists h', hist c' = hist c ++ h' /\ forall e, In e h' -> match e with EAcc _ _ _ | ERet _ _ _ | EPan _ _ _ => True | _ => False end.
  Lemma grown_refl c : grown c c.
  Proof. split; [constructor|]. exists []. rewrite app_nil_r. split; [reflexivity|intros e []]. Qed.
  Lemma reach_trans P c1 c2 c3 : reach E P c1 c2 -> reach E P c2 c3 -> reach E P c1 c3.
  Proof. intros H1 H2. induction H2; [assumption|]. eapply reach_step; eauto. Qed.
  Lemma grown_trans c1 c2 c3 : grown c1 c2 -> grown c2 c3 -> grown c1 c3.
  Proof.
    intros (R1 & h1 & H1 & F1) (R2 & h2 & H2 & F2). split; [eapply reach_trans; eauto|].
    exists (h1 ++ h2). rewrite H2, H1, app_assoc. split; [reflexivity|]. intros e He. apply in_app_iff in He. destruct He as [He|He]; [exact (F1 e He)|exact (F2 e He)].
  Qed.

  (** thread [t] runs to the end of its call *)
  Lemma finish_call c t x : execution c -> lookup t (run c) = Some x -> straight (c_prog x) ->
    exists c', grown c c' /\ execution c' /\ lookup t (run c') = None /\ (forall u, u <> t -> lookup u (run c') = lookup u (run c)) /\
      length (run c') < length (run c) /\ forall id, id <> c_id x -> accs id (hist c') = accs id (hist c).
  Proof.
    intros X Lk St. remember (c_prog x) as p eqn:Hp. revert c x X Lk Hp.
    induction p as [r|m|a k IH|a ag k IH]; intros c x X Lk Hp; simpl in St; [| | |contradiction].
    - assert (S : step E c (LStep t) = Next (Cfg (sh c) (remove t (run c)) (hist c ++ [ERet (c_id x) t r]) (given c ++ grants r)))
        by (simpl; unfold step_thread; now rewrite Lk, <- Hp).
      destruct (execution_world _ _ _ _ _ _ c X) as (snap & g & W). pose proof (gi_nodup _ _ _ _ _ _ _ _ (w_gi _ _ _ _ _ _ _ _ W)) as Nd.
      eexists. split; [|split; [eapply (execution_step E ro nl l0 c0 m0 c (LStep t)); [exact X|exact I|exact S]|]].
      + split; [eapply (reach_step E _ c c (LStep t)); [constructor|exact I|exact S]|]. exists [ERet (c_id x) t r]. split; [reflexivity|]. intros e [<-|[]]. exact I.
      + simpl. split; [now apply lookup_remove_same|]. split; [intros u N; now apply lookup_remove_other|]. split.
        * clear - Lk. induction (run c) as [|[u z] l IH]; simpl in *; [discriminate|]. destruct (t =? u); simpl; [lia|]. specialize (IH Lk). lia.
        * intros id N. apply accs_snoc. discriminate.
    - assert (S : step E c (LStep t) = Next (Cfg (sh c) (remove t (run c)) (hist c ++ [EPan (c_id x) t m]) (given c)))
        by (simpl; unfold step_thread; now rewrite Lk, <- Hp).
      destruct (execution_world _ _ _ _ _ _ c X) as (snap & g & W). pose proof (gi_nodup _ _ _ _ _ _ _ _ (w_gi _ _ _ _ _ _ _ _ W)) as Nd.
      eexists. split; [|split; [eapply (execution_step E ro nl l0 c0 m0 c (LStep t)); [exact X|exact I|exact S]|]].
      + split; [eapply (reach_step E _ c c (LStep t)); [constructor|exact I|exact S]|]. exists [EPan (c_id x) t m]. split; [reflexivity|]. intros e [<-|[]]. exact I.
      + simpl. split; [now apply lookup_remove_same|]. split; [intros u N; now apply lookup_remove_other|]. split.
        * clear - Lk. induction (run c) as [|[u z] l IH]; simpl in *; [discriminate|]. destruct (t =? u); simpl; [lia|]. specialize (IH Lk). lia.
        * intros id N. apply accs_snoc. discriminate.
    - pose proof (execution_no_fault E ro nl l0 c0 m0 c (LStep t)) as NF.
      assert (S : step E c (LStep t) = match exec E t a (sh c) with Done y s l => Next (after t c x (k y) s l) | Bad f => Fault f end)
        by (simpl; unfold step_thread; now rewrite Lk, <- Hp).
      destruct (exec E t a (sh c)) as [y s' l|f] eqn:Ex; [|exfalso; now apply (NF f X I)].
      set (d := after t c x (k y) s' l) in *.
      assert (Xd : execution d) by (eapply (execution_step E ro nl l0 c0 m0 c (LStep t)); [exact X|exact I|exact S]).
      destruct (IH y (St y) d (Call (c_id x) (c_op x) (k y)) Xd) as (c' & G & X' & L1 & L2 & L3 & L4).
      { unfold d. rewrite (after_lookup t c x _ _ _ t Lk), Nat.eqb_refl. reflexivity. }
      { reflexivity. }
      exists c'. split; [|split; [assumption|split; [assumption|split; [|split]]]].
      + eapply grown_trans; [|exact G]. split; [eapply (reach_step E _ c c (LStep t)); [constructor|exact I|exact S]|].
        exists (map (EAcc (c_id x) t) l). split; [reflexivity|]. intros e He. apply in_map_iff in He. destruct He as (z & <- & _). exact I.
      + intros u N. rewrite L2 by assumption. unfold d. rewrite (after_lookup t c x _ _ _ u Lk). now destruct (Nat.eqb_spec u t).
      + assert (length (run d) = length (run c)); [|lia]. unfold d. simpl. clear - Lk.
        induction (run c) as [|[u z] l IH]; simpl in *; [discriminate|]. destruct (t =? u); simpl in *; [reflexivity|]. specialize (IH Lk). lia.
      + intros id N. rewrite L4 by assumption. unfold d. simpl. rewrite accs_app, accs_map. destruct (Nat.eqb_spec (c_id x) id); [congruence|apply app_nil_r].
  Qed.

  Lemma complete c : execution c -> exists c', grown c c' /\ execution c' /\
    forall id t o, open (hist c') id t o -> direct o = true -> ~ has_effect id (hist c').
  Proof.
    remember (length (run c)) as n eqn:Hn. revert c Hn.
    induction n as [n IH] using lt_wf_ind. intros c Hn X.
    set (b := existsb (fun p => direct (c_op (snd p)) && existsb is_effect (accs (c_id (snd p)) (hist c))) (run c)).
    destruct (execution_world _ _ _ _ _ _ c X) as (snap & g & W). pose proof (w_gi _ _ _ _ _ _ _ _ W) as G.
    pose proof (gi_nodup _ _ _ _ _ _ _ _ G) as Nd. destruct b eqn:Hb; subst b.
    - apply existsb_exists in Hb. destruct Hb as ((t & x) & Hin & Hb). simpl in Hb. apply andb_true_iff in Hb. destruct Hb as [At Ef].
      apply existsb_exists in Ef. destruct Ef as (z & Hz & Fz).
      assert (Lk : lookup t (run c) = Some x).
      { clear - Hin Nd. induction (run c) as [|[u y] l IH]; simpl in *; [destruct Hin|]. inversion Nd; subst. destruct Hin as [Hin|Hin].
        - injection Hin as -> ->. now rewrite Nat.eqb_refl.
        - destruct (Nat.eqb_spec t u) as [->|]; [|auto]. exfalso. apply H1. apply in_map_iff. exists (u, x). auto. }
      destruct (execution_settled c X t x Lk At) as [_ S].
      destruct (finish_call c t x X Lk) as (d & Gr & Xd & _ & _ & Ld & _); [apply S; exists z; auto|].
      destruct (IH (length (run d)) ltac:(lia) d eq_refl Xd) as (c' & Gr' & X' & F). exists c'. split; [eapply grown_trans; eauto|]. auto.
    - exists c. split; [apply grown_refl|]. split; [assumption|]. intros id t o O At (z & Hz & Fz).
      destruct (gi_open _ _ _ _ _ _ _ _ G id t o O) as (x & Lk & Hid).
      destruct (gi_run _ _ _ _ _ _ _ _ G t x Lk) as ((O1 & _) & _). destruct O as [O _]. rewrite Hid, O in O1. injection O1 as Ho.
      enough (Y : existsb (fun p => direct (c_op (snd p)) && existsb is_effect (accs (c_id (snd p)) (hist c))) (run c) = true) by congruence.
      apply existsb_exists. exists (t, x). split.
      + clear - Lk. induction (run c) as [|[u y] l IH]; simpl in *; [discriminate|]. destruct (Nat.eqb_spec t u) as [->|]; [injection Lk as ->; auto|auto].
      + simpl. rewrite <- Ho, At, Hid. simpl. apply existsb_exists. eauto.
  Qed.
End Complete.
