(** * C27: a vector used by one call at a time behaves like a list. *)

From Coq Require Import List Arith Bool Lia.
From Verif.Model Require Import Prog Mem Deps State Elem Vec Excl Machine.
From Verif Require Import Client Spec Seq Lists ListSem.
From Verif.Logic Require Import Inv WP Post Specs Ops Sound Shape Clients Hist Locks Facts Complete Single SingleOps.
From Verif.Properties Require Import Examples Progress Views Slices.
Import ListNotations.

Section Alone.
  Context {V : Type} (E : env V) (ro nl : bool) (l0 : list V) (c0 m0 : nat) (c : cfg V).
  Hypothesis X : execution E ro nl l0 c0 m0 c.
  Notation h := (hist c).
  Notation a0 := (abs0 l0 m0).
  Notation sem := (list_sem (eqv E) (wmod E) (ochk E)).

  Lemma acts_max id (A : abs V) tr : a_max (acts id A tr) = a_max A.
  Proof. unfold acts. revert A. induction tr as [|x tr IH]; intros A; [reflexivity|]. simpl. rewrite IH. destruct x; reflexivity. Qed.
  Lemma alone_chain snap id t o r : explained E ro nl l0 m0 snap h -> nth_error h id = Some (EInv id t o) -> alone h id r -> r <= length h ->
    forall k, id < k <= r -> before a0 h k = acts id (before a0 h id) (accs id (firstn k h)) /\ chain id (before a0 h id) (accs id (firstn k h)).
  Proof.
    intros Ex Hid [_ Al] Hr. induction k as [|k IH]; intros Hk; [lia|]. destruct (nth_error h k) as [e|] eqn:Hek; [|apply nth_error_None in Hek; lia].
    assert (A0 : accs id (firstn (S id) h) = []).
    { destruct (accs id (firstn (S id) h)) as [|x l] eqn:Q; [reflexivity|]. destruct (accs_firstn h (S id) id x) as (j & u & Hj & Hx); [rewrite Q; now left|].
      destruct (h_acc _ _ _ _ _ _ _ Ex _ _ _ _ Hx) as (o' & H1 & _). lia. }
    destruct (Nat.eq_dec k id) as [->|N].
    - rewrite A0. split; [|exact I]. rewrite (before_S _ _ _ _ Hid). reflexivity.
    - destruct (IH ltac:(lia)) as [B C]. destruct (Al k e ltac:(lia) Hek) as (u & y & ->).
      rewrite (before_S _ _ _ _ Hek), (firstn_S _ _ _ Hek). unfold accs. rewrite flat_map_app. simpl. rewrite Nat.eqb_refl. simpl.
      fold (accs id (firstn k h)). unfold acts. rewrite fold_left_app. simpl. fold (acts id (before a0 h id) (accs id (firstn k h))).
      rewrite <- B. split; [unfold act1; destruct y; reflexivity|]. apply chain_app. split; [assumption|]. rewrite <- B. split; [|exact I].
      destruct (h_ev _ _ _ _ _ _ _ Ex k _ Hek) as (_ & Lg & _). exact Lg.
  Qed.
  Lemma alone_not_busy id r i k : alone h id r -> id < k <= r -> ~ busy h id i k.
  Proof.
    intros [Rs Al] Hk (id' & t' & o' & N & O & _). destruct (open_firstn _ _ _ _ _ O) as (L1 & L2 & L3).
    destruct (Nat.lt_ge_cases id' id) as [L|L].
    - apply (Rs id' t' o'). apply firstn_open; auto. intros q e Hq. apply L3. lia.
    - destruct (Al id' _ ltac:(lia) L2) as (t & y & Q). discriminate.
  Qed.

  (** C27: a call that is alone in a vector that is the list [ws] ends with the result the operation has on
      this list, and leaves the vector as the list the operation leaves behind.  (After a panicking growth
      call there may be positions without values in addition, see C18.) *)
  Theorem C27_step id r o x ws : ended h id r o x -> alone h id r -> is_list (before a0 h id) ws ->
    exists ws', sem (a_max (before a0 h id)) o ws x ws' /\
      (forall i, value (before a0 h (S r)) i = nth_error ws' i) /\
      (grows o = false \/ (exists v, x = Returns v) -> is_list (before a0 h (S r)) ws').
  Proof.
    intros En Al [HL HS]. destruct (execution_expl _ _ _ _ _ _ c X) as (snap & Ex & _).
    destruct (execution_holds _ _ _ _ _ _ c X) as (_ & _ & LE).
    assert (Base : exists t e, nth_error h id = Some (EInv id t o) /\ nth_error h r = Some e /\ is_end id e = true /\ id < r /\ r < length h /\ epoch h id = epoch h r).
    { destruct x as [v|m]; simpl in En.
      - destruct (h_returned _ _ _ _ _ _ _ Ex _ _ _ _ En) as (H1 & H2 & H3 & _). destruct En as (t & E1 & E2). exists t, (ERet id t v). simpl. rewrite Nat.eqb_refl. auto 10.
      - destruct (h_panicked _ _ _ _ _ _ _ Ex _ _ _ _ En) as (H1 & H2 & H3 & _). destruct En as (t & E1 & E2). exists t, (EPan id t m). simpl. rewrite Nat.eqb_refl. auto 10. }
    destruct Base as (t & e & Hid & Hre & He & Hir & Hr & Hep).
    destruct (alone_chain snap id t o r Ex Hid Al ltac:(lia) r ltac:(lia)) as [HB HC].
    set (A := before a0 h id) in *. set (tr := accs id (firstn r h)) in *.
    assert (Vr : forall i, value (before a0 h (S r)) i = value (acts id A tr) i).
    { intros i. rewrite (before_S _ _ _ _ Hre), <- HB. destruct e; try discriminate; [reflexivity|]. simpl. unfold value. simpl. destruct (a_pos (before a0 h r) i); try reflexivity. now destruct (id1 =? id0). }
    assert (Lr : a_len (before a0 h (S r)) = a_len (acts id A tr)).
    { rewrite (before_S _ _ _ _ Hre), <- HB. destruct e; try discriminate; reflexivity. }
    destruct (h_good _ _ _ _ _ _ _ Ex id ltac:(lia)) as [G1 A1]. destruct (h_good _ _ _ _ _ _ _ Ex r ltac:(lia)) as [G2 A2].
    pose proof (ag_max _ _ A1) as M1. pose proof (ag_max _ _ A2) as M2. fold A in M1. rewrite HB, acts_max in M2.
    assert (HCR : cap (snap r) <= a_max A) by (rewrite <- M2; destruct X as (OK & _); eapply good_cap_max; eauto).
    assert (HR : forall i v, a_pos (acts id A tr) i = Has v -> i < a_max A).
    { intros i v Hv. rewrite <- HB in Hv. assert (F : filledp (snap r) i) by (apply (h_filled _ _ _ _ _ _ _ Ex r i ltac:(lia)); eauto). destruct F as [F _]. lia. }
    destruct (h_ev _ _ _ _ _ _ _ Ex id _ Hid) as (_ & _ & Gr & Alw).
    assert (In0 : inside ws o).
    { assert (F : forall i, filledp (snap id) i -> i < length ws).
      { intros i F. apply (h_filled _ _ _ _ _ _ _ Ex id i ltac:(lia)) in F. destruct F as (v & F). now apply (shape_lt A ws i v HS F). }
      destruct o; simpl; auto; specialize (Gr _ eq_refl); simpl in Gr; auto.
      destruct Gr as (Gr & _). destruct (Nat.le_gt_cases (sl_a x0 + sl_len x0) (length ws)) as [|L]; [assumption|].
      assert (Fl : filledp (snap id) (length ws)) by (eapply good_filled_wrtn; [exact G1|lia]); apply F in Fl. lia. }
    destruct Alw as (Rg & _).
    assert (Ps : exists ws', sem (a_max A) o ws x ws' /\ shape (acts id A tr) ws' /\ (grows o = false \/ (exists v, x = Returns v) -> a_len (acts id A tr) = length ws')).
    { destruct (self_swap o) eqn:Sw.
      - (* never has an effect *)
        destruct x as [v|m]; simpl in En.
        + destruct (h_returned _ _ _ _ _ _ _ Ex _ _ _ _ En) as (_ & _ & _ & _ & P & _). fold tr in P. exists ws.
          assert (Q : v = RBool false /\ eff tr = []).
          { destruct o; simpl in Sw; try discriminate; simpl in P.
            - apply Nat.eqb_eq in Sw. subst j. destruct P as [(a & b & _ & N & _)|(-> & Ef & _)]; [congruence|auto].
            - destruct o; try discriminate. apply Nat.eqb_eq in Sw. subst j. simpl in P.
              destruct P as [(_ & _ & [(a & b & _ & N & _)|(-> & Ef & _)])|(_ & -> & Ef)]; [congruence|auto|auto]. }
          destruct Q as [-> Ef]. rewrite (acts_nil id A tr Ef). split; [|auto].
          destruct o; simpl in Sw; try discriminate.
          * apply Nat.eqb_eq in Sw. subst j. unfold list_sem, slice_list, swap_list. simpl. rewrite Nat.eqb_refl.
            destruct (Nat.ltb_spec i (length ws)); simpl; split; reflexivity.
          * destruct o; try discriminate. apply Nat.eqb_eq in Sw. subst j. unfold list_sem, slice_list, swap_list. rewrite Nat.eqb_refl.
            destruct (Nat.ltb_spec i (sl_len x)); simpl; split; reflexivity.
        + destruct (h_panicked _ _ _ _ _ _ _ Ex _ _ _ _ En) as (_ & _ & _ & _ & P). destruct o; simpl in Sw; try discriminate; simpl in P; [contradiction|].
          destruct o; try discriminate. contradiction.
      - assert (NR : forall i, ~ In (AcSt i RESERVED) tr).
        { intros i Hi. destruct (in_accs _ _ _ _ _ _ _ Ex id r _ e Hi Hre He) as (j & u & Hj & Hx & _).
          destruct (h_acc _ _ _ _ _ _ _ Ex _ _ _ _ Hx) as (o' & _ & Ho' & _). assert (o' = o /\ u = t) as [-> ->] by (split; congruence).
          apply (alone_not_busy id r i j Al ltac:(lia)). exact (h_lock E ro nl l0 m0 snap h Ex LE j id t i o Hx Hid Sw). }
        assert (HN : forall n, lenres n tr (snap id) (snap r) -> (forall y, In y tr -> keeps y = true) -> n = length ws).
        { intros n [[_ L] Rs] K. pose proof (len_at_least id A ws tr HS HL HC NR n K Rs) as L1. destruct (Nat.eq_dec n (length ws)) as [|N]; [assumption|].
          destruct (h_wrtn _ _ _ _ _ _ _ Ex r (length ws) ltac:(lia) ltac:(lia)) as (v & Hv). rewrite HB in Hv.
          destruct (keeps_all id A A tr (alike_refl A) HC K) as (_ & _ & S3). destruct (proj2 (S3 (length ws)) (ex_intro _ v Hv)) as (w & Hw).
          destruct (shape_lt A ws _ w HS Hw). lia. }
        destruct x as [v|m]; simpl in En.
        + destruct (h_returned _ _ _ _ _ _ _ Ex _ _ _ _ En) as (_ & _ & _ & _ & P & _). fold tr in P.
          destruct (op_single E id A ws tr (snap id) (snap r) HS HL HC NR HR HN (eq_sym M1) o v P In0 Rg) as (ws' & H1 & H2 & H3). exists ws'. auto.
        + destruct (h_panicked _ _ _ _ _ _ _ Ex _ _ _ _ En) as (_ & _ & _ & _ & P). fold tr in P.
          destruct (op_panics E id A ws tr (snap id) (snap r) HS HL HC HN (eq_sym M1) HCR o m P In0) as (ws' & H1 & H2 & H3). exists ws'. split; [assumption|]. split; [assumption|].
          intros [Q|(v & Q)]; [auto|discriminate]. }
    destruct Ps as (ws' & H1 & H2 & H3). exists ws'. split; [assumption|]. assert (Vs : forall i, value (before a0 h (S r)) i = nth_error ws' i) by (intros i; rewrite Vr; apply H2).
    split; [assumption|]. intros Q. split; [rewrite Lr; auto|assumption].
  Qed.

  (** *** Sequential histories *)
  Definition by_thread (t : nat) (e : event V) : Prop :=
    match e with EInv _ u _ | ERet _ u _ | EPan _ u _ | EAcc _ u _ => u = t | _ => False end.
  Lemma thread_alone snap id t o r x : explained E ro nl l0 m0 snap h -> ended h id r o x -> nth_error h id = Some (EInv id t o) ->
    at_rest (firstn id h) -> (forall k e, id < k < r -> nth_error h k = Some e -> by_thread t e) -> alone h id r.
  Proof.
    intros Ex En Hid Rs Th.
    assert (Base : exists e, nth_error h r = Some e /\ is_end id e = true /\ id < r /\ r < length h /\ forall j e, j < r -> nth_error h j = Some e -> is_end id e = false).
    { destruct x as [v|m]; simpl in En.
      - destruct (h_returned _ _ _ _ _ _ _ Ex _ _ _ _ En) as (H1 & H2 & _ & H3 & _). destruct En as (u & E1 & E2). exists (ERet id u v). simpl. rewrite Nat.eqb_refl. auto 10.
      - destruct (h_panicked _ _ _ _ _ _ _ Ex _ _ _ _ En) as (H1 & H2 & _ & H3 & _). destruct En as (u & E1 & E2). exists (EPan id u m). simpl. rewrite Nat.eqb_refl. auto 10. }
    destruct Base as (er & Hre & He & Hir & Hr & No).
    assert (Op : forall q, id < q <= r -> open (firstn q h) id t o).
    { intros q Hq. apply firstn_open; [lia|assumption|]. intros j e Hj. apply No. lia. }
    assert (Un : forall q id' t' o', id < q <= r -> open (firstn q h) id' t' o' -> id' = id).
    { intros q id' t' o' Hq O. destruct (open_firstn _ _ _ _ _ O) as (L1 & L2 & L3). destruct (Nat.lt_trichotomy id' id) as [L|[L|L]]; [|assumption|].
      - exfalso. apply (Rs id' t' o'). apply firstn_open; auto. intros j e Hj. apply L3. lia.
      - exfalso. pose proof (Th id' _ ltac:(lia) L2) as T. simpl in T. subst t'.
        destruct (h_ev _ _ _ _ _ _ _ Ex id' _ L2) as (Wf & _). simpl in Wf. destruct Wf as [_ Wf]. apply (Wf id o). apply Op. lia. }
    split; [assumption|]. intros k e Hk He'. pose proof (Th k e Hk He') as T. destruct (h_ev _ _ _ _ _ _ _ Ex k e He') as (Wf & _).
    destruct e as [id' u o'|id' u v|id' u m|id' u y| |]; simpl in T, Wf; try contradiction; subst.
    - destruct Wf as [_ Wf]. exfalso. apply (Wf id o). apply Op. lia.
    - destruct Wf as (o' & Wf). apply (Un k) in Wf; [|lia]. subst id'. specialize (No k _ ltac:(lia) He'). simpl in No. now rewrite Nat.eqb_refl in No.
    - destruct Wf as (o' & Wf). apply (Un k) in Wf; [|lia]. subst id'. specialize (No k _ ltac:(lia) He'). simpl in No. now rewrite Nat.eqb_refl in No.
    - destruct Wf as (o' & Wf). apply (Un k) in Wf; [|lia]. subst id'. eauto.
  Qed.
  Notation run_list := (list_run (eqv E) (wmod E) (ochk E)).
  Lemma run_app l l' : forall m ws m1 ws1 m2 ws2, run_list l m ws m1 ws1 -> run_list l' m1 ws1 m2 ws2 -> run_list (l ++ l') m ws m2 ws2.
  Proof.
    induction l as [|[o x| |k] l IH]; intros m ws m1 ws1 m2 ws2 H H'; simpl in *.
    - destruct H as [-> ->]. assumption.
    - destruct H as (w & H1 & H2). eauto.
    - eauto.
    - destruct H as [H1 H2]. eauto.
  Qed.
  Definition item_of (e : event V) : list (past V) :=
    match e with
    | ERet id _ v => op_of h id (Returns v)
    | EPan id _ m => op_of h id (Panics m)
    | EClear => [JClear]
    | EReserve _ m => [JReserve m]
    | _ => []
    end.
  Lemma items_skip j k : j <= k -> k <= length h -> (forall q e, j <= q < k -> nth_error h q = Some e -> item_of e = []) ->
    flat_map item_of (firstn k h) = flat_map item_of (firstn j h).
  Proof.
    intros L. induction L as [|k L IH]; intros Hk N; [reflexivity|]. destruct (nth_error h k) as [e|] eqn:He; [|apply nth_error_None in He; lia].
    rewrite (firstn_S _ _ _ He), flat_map_app. simpl. rewrite (N k e ltac:(lia) He), app_nil_r. apply IH; [lia|]. intros q e' Hq. apply N. lia.
  Qed.

  (** A history of one thread, in which no growth call panicked, is a sequence of operations on a list,
      from the initial list to the list the vector is in the end. *)
  Theorem C27_run t : one_thread h t -> at_rest h -> (forall id r o m, panicked h id r o m -> grows o = false) ->
    exists ws, run_list (items h) m0 l0 (a_max (replay a0 h)) ws /\ is_list (replay a0 h) ws.
  Proof.
    intros Th Rs Np. destruct (execution_expl _ _ _ _ _ _ c X) as (snap & Ex & _).
    assert (K : forall n k, k <= n -> k <= length h -> at_rest (firstn k h) -> exists ws,
      run_list (flat_map item_of (firstn k h)) m0 l0 (a_max (before a0 h k)) ws /\ is_list (before a0 h k) ws).
    { induction n as [|n IH]; intros k Hn Hk R.
      - replace k with 0 by lia. exists l0. simpl. split; [auto|]. split; [reflexivity|]. intros i. unfold before, value. simpl. now destruct (nth_error l0 i).
      - destruct k as [|k]; [apply IH; auto; lia|]. destruct (nth_error h k) as [e|] eqn:He; [|apply nth_error_None in He; lia].
        pose proof (Th e (nth_error_In _ _ He)) as Te. destruct (h_ev _ _ _ _ _ _ _ Ex k e He) as (Wf & Lg & _).
        assert (Ended : forall id o x, (exists u, e = match x with Returns v => ERet id u v | Panics m => EPan id u m end) -> nth_error h id = Some (EInv id t o) -> ended h id k o x -> exists ws,
          run_list (flat_map item_of (firstn (S k) h)) m0 l0 (a_max (before a0 h (S k))) ws /\ is_list (before a0 h (S k)) ws).
        { intros id o x (u & Ee) Hid En.
          assert (Base : id < k /\ epoch h id = epoch h k).
          { destruct x as [v|m]; simpl in En; [destruct (h_returned _ _ _ _ _ _ _ Ex _ _ _ _ En) as (H1 & _ & H3 & _)|destruct (h_panicked _ _ _ _ _ _ _ Ex _ _ _ _ En) as (H1 & _ & H3 & _)]; auto. }
          destruct Base as [Hik Hep].
          assert (R0 : at_rest (firstn id h)).
          { intros id' t' o' O. destruct (open_firstn _ _ _ _ _ O) as (_ & L2 & _). pose proof (Th _ (nth_error_In _ _ L2)) as T. simpl in T. subst t'.
            destruct (h_ev _ _ _ _ _ _ _ Ex id _ Hid) as (W & _). simpl in W. destruct W as [_ W]. exact (W _ _ O). }
          assert (Al : alone h id k).
          { apply (thread_alone snap id t o k x Ex En Hid R0). intros q e' Hq He'. pose proof (Th _ (nth_error_In _ _ He')) as T. destruct e'; simpl in *; auto.
            - exact (epoch_clear h id k q Hep ltac:(lia) He').
            - destruct (h_ev _ _ _ _ _ _ _ Ex q _ He') as (W & _). simpl in W. apply (W id t o). apply firstn_open; [lia|assumption|]. intros j e'' Hj Hj'.
              destruct x as [v|pm]; simpl in En; [destruct (h_returned _ _ _ _ _ _ _ Ex _ _ _ _ En) as (_ & _ & _ & N & _)|destruct (h_panicked _ _ _ _ _ _ _ Ex _ _ _ _ En) as (_ & _ & _ & N & _)]; apply (N j); auto; lia. }
          destruct (IH id ltac:(lia) ltac:(lia) R0) as (ws & H1 & H2). destruct (C27_step id k o x ws En Al H2) as (ws' & H3 & H4 & H5).
          exists ws'. split.
          - rewrite (firstn_S _ _ _ He), flat_map_app. assert (It : flat_map item_of [e] = [JCall o x]).
            { simpl. rewrite app_nil_r, Ee. destruct x; simpl; unfold op_of; now rewrite Hid. }
            rewrite It. rewrite (items_skip id k ltac:(lia) ltac:(lia)).
            + eapply run_app; [exact H1|]. exists ws'. split; [exact H3|]. split; [|reflexivity]. rewrite (before_S _ _ _ _ He).
              replace (a_max (apply (before a0 h k) e)) with (a_max (before a0 h k)) by (rewrite Ee; destruct x; reflexivity).
              destruct (alone_chain snap id t o k Ex Hid Al ltac:(lia) k ltac:(lia)) as [HB _]. rewrite HB. apply acts_max.
            + intros q e' Hq He'. destruct (Nat.eq_dec q id) as [->|N]; [rewrite Hid in He'; injection He' as <-; reflexivity|].
              destruct Al as [_ Al]. destruct (Al q e' ltac:(lia) He') as (u' & y & ->). reflexivity.
          - apply H5. destruct x as [v|m]; [right; eauto|left]. eapply Np; exact En. }
        destruct e as [id u o|id u v|id u m|id u y| |k' m]; simpl in Te, Wf.
        + exfalso. destruct Wf as [-> _]. rewrite firstn_length, Nat.min_l in He by lia.
          apply (R k u o). apply firstn_open; [lia|assumption|]. intros j e Hj Hj'.
          destruct (is_end k e) eqn:Q; [|reflexivity]. exfalso. destruct e as [|id' u' v'|id' u' v'| | |]; try discriminate; simpl in Q; apply Nat.eqb_eq in Q; subst id'.
          * destruct (h_ret _ _ _ _ _ _ _ Ex _ _ _ _ Hj') as (o' & L & _). lia.
          * destruct (h_pan _ _ _ _ _ _ _ Ex _ _ _ _ Hj') as (o' & L & _). lia.
        + subst u. destruct (h_ret _ _ _ _ _ _ _ Ex _ _ _ _ He) as (o & L & Hid & _). apply (Ended id o (Returns v)); [eauto|assumption|exists t; auto].
        + subst u. destruct (h_pan _ _ _ _ _ _ _ Ex _ _ _ _ He) as (o & L & Hid & _). apply (Ended id o (Panics m)); [eauto|assumption|exists t; auto].
        + exfalso. destruct Wf as (o & O). apply (R id u o). destruct (open_firstn _ _ _ _ _ O) as (L1 & L2 & L3). apply firstn_open; [lia|assumption|].
          intros j e Hj Hj'. destruct (Nat.eq_dec j k) as [->|]; [rewrite He in Hj'; injection Hj' as <-; reflexivity|]. apply (L3 j); auto. lia.
        + destruct (IH k ltac:(lia) ltac:(lia) Wf) as (ws & H1 & H2). exists []. rewrite (before_S _ _ _ _ He). split.
          * rewrite (firstn_S _ _ _ He), flat_map_app. eapply run_app; [exact H1|]. simpl. auto.
          * split; [reflexivity|]. intros i. now destruct i.
        + destruct (IH k ltac:(lia) ltac:(lia) Wf) as (ws & H1 & H2). exists ws. rewrite (before_S _ _ _ _ He). split.
          * rewrite (firstn_S _ _ _ He), flat_map_app. eapply run_app; [exact H1|]. simpl. simpl in Lg. auto.
          * exact H2. }
    destruct (K (length h) (length h) (Nat.le_refl _) (Nat.le_refl _)) as (ws & H1 & H2); [now rewrite firstn_all|].
    exists ws. rewrite firstn_all in H1. rewrite (before_all a0 h (length h) (Nat.le_refl _)) in *. auto.
  Qed.
End Alone.

(** Every call a thread may make on a vector at rest ends, unless it is [swap(i,i)] in the variant that
    waits (C23), or a growth call after the panic of a growth call (C19). *)
Section Ends.
  Context {V : Type} (E : env V) (l0 : list V) (c0 m0 : nat) (c c1 : cfg V).
  Hypothesis X : execution E false false l0 c0 m0 c.
  Theorem C27_ends t o : at_rest (hist c) -> client E false false (length l0) c (LInv t o) -> step E c (LInv t o) = Next c1 ->
    self_swap o && hspin E = false -> grows o = false \/ ~ overrun (hist c) ->
    exists n c', runs E c1 (repeat (LStep t) n) = Next c' /\ at_rest (hist c').
  Proof.
    intros R Cl S Ns Gp. pose proof (execution_step E false false l0 c0 m0 c _ c1 X Cl S) as X1.
    assert (Hh : hist c1 = hist c ++ [EInv (length (hist c)) t o]).
    { simpl in S. destruct (lookup t (run c)); [discriminate|]. destruct (has_grant o (given c)); [|discriminate]. injection S as <-. reflexivity. }
    assert (Oc : forall id t' o', open (hist c1) id t' o' -> id = length (hist c) /\ t' = t /\ o' = o).
    { intros id t' o' [O1 O2]. rewrite Hh in O1, O2. rewrite existsb_app in O2. apply orb_false_iff in O2. destruct O2 as [O2 _].
      destruct (Nat.lt_ge_cases id (length (hist c))) as [L|L].
      - rewrite nth_error_app1 in O1 by assumption. exfalso. apply (R id t' o'). split; assumption.
      - rewrite nth_error_app2 in O1 by assumption. destruct (id - length (hist c)) as [|k] eqn:Q; simpl in O1; [|destruct k; discriminate].
        injection O1 as H1 H2 H3. subst. auto. }
    apply (C21_alone E l0 c0 m0 c1 X1 t (length (hist c)) o).
    - destruct (execution_world _ _ _ _ _ _ c1 X1) as (snap & g & W). pose proof (w_gi _ _ _ _ _ _ _ _ W) as G.
      simpl in S. destruct (lookup t (run c)) eqn:Lk; [discriminate|]. destruct (has_grant o (given c)); [|discriminate]. injection S as S.
      assert (L1 : lookup t (run c1) = Some (Call (length (hist c)) o (op_prog E o))) by (rewrite <- S; simpl; now rewrite Nat.eqb_refl).
      exact (proj1 (gi_run _ _ _ _ _ _ _ _ G t _ L1)).
    - intros id' t' o' O. apply (Oc id' t' o' O).
    - assumption.
    - destruct Gp as [Gp|Gp]; [auto|right]. rewrite Hh. intros Q. apply Gp. revert Q. apply over_app. intros e [<-|[]]. exact Logic.I.
  Qed.
End Ends.

Lemma is_list_by {V} (E : env V) ro nl l0 c0 m0 c ws : execution E ro nl l0 c0 m0 c ->
  map (value (replay (abs0 l0 m0) (hist c))) (seq 0 (a_len (replay (abs0 l0 m0) (hist c)))) = map Some ws -> is_list (replay (abs0 l0 m0) (hist c)) ws.
Proof.
  intros X H. assert (L : a_len (replay (abs0 l0 m0) (hist c)) = length ws) by (rewrite <- (map_length Some ws), <- H, map_length, seq_length; reflexivity).
  split; [assumption|]. intros i. destruct (Nat.lt_ge_cases i (length ws)) as [Hi|Hi].
  - assert (N : nth_error (map Some ws) i = Some (value (replay (abs0 l0 m0) (hist c)) i)).
    { rewrite <- H, nth_error_map. assert (Q : nth_error (seq 0 (a_len (replay (abs0 l0 m0) (hist c)))) i = Some i).
      { rewrite L. rewrite (nth_error_nth' _ 0) by (rewrite seq_length; assumption). now rewrite seq_nth. }
      now rewrite Q. }
    rewrite nth_error_map in N. destruct (nth_error ws i); [|discriminate]. simpl in N. congruence.
  - rewrite (proj2 (nth_error_None _ i) Hi). pose proof (pos_cases _ _ _ _ _ _ c i X) as P. unfold value.
    destruct (a_pos (replay (abs0 l0 m0) (hist c)) i); try reflexivity. lia.
Qed.

(** A history of one thread. *)
Definition alone_script : list (Examples.item nat) :=
  calls 0 (OPush 6) ++ calls 0 (OExtend 2 [Some 7; Some 8]) ++ calls 0 (OGet 1) ++ calls 0 (OElem 1 (EReplace 9)) ++ calls 0 (OSwap 0 3) ++ calls 0 OAsSlice ++
  calls 0 (OSl (CSlice 0 4) (SSlice (rng 1 3))) ++ calls 0 (OSl (CSlice 1 2) (SFill 1)) ++ calls 0 OLen ++ calls 0 OIterCloned ++
  [Lab LClear] ++ calls 0 (OPush 4) ++ calls 0 (OSplitAt 9) ++ calls 0 (OMap plus1).
Notation al := (final [5] alone_script).
Example alone_execution : execution ex false false [5] 2 8 al.
Proof. apply ex_final. vm_compute. reflexivity. Qed.
Example alone_example : one_thread (hist al) 0 /\ at_rest (hist al) /\
  (forall id r o m, panicked (hist al) id r o m -> grows o = false) /\ is_list (replay (abs0 [5] 8) (hist al)) [4] /\
  items (hist al) =
   [JCall (OPush 6) (Returns (RNat 1)); JCall (OExtend 2 [Some 7; Some 8]) (Returns (RNat 2));
    JCall (OGet 1) (Returns (ROptElem (Some 1))); JCall (OElem 1 (EReplace 9)) (Returns (RVal 6));
    JCall (OSwap 0 3) (Returns (RBool true)); JCall OAsSlice (Returns (RSl (CSlice 0 4)));
    JCall (OSl (CSlice 0 4) (SSlice (rng 1 3))) (Returns (RSl (CSlice 1 2)));
    JCall (OSl (CSlice 1 2) (SFill 1)) (Returns RUnit); JCall OLen (Returns (RNat 4));
    JCall OIterCloned (Returns (RVals [8; 1; 1; 5])); JClear; JCall (OPush 4) (Returns (RNat 0));
    JCall (OSplitAt 9) (Panics PAssert); JCall (OMap plus1) (Returns (RVals [5]))].
Proof.
  split; [|split; [|split; [|split; [|vm_compute; reflexivity]]]].
  - assert (G : forall h : list (event nat), forallb (fun e => match e with EInv _ u _ | ERet _ u _ | EPan _ u _ | EAcc _ u _ => u =? 0 | _ => true end) h = true -> one_thread h 0).
    { intros h H e He. rewrite forallb_forall in H. specialize (H e He). destruct e; auto; now apply Nat.eqb_eq. }
    apply G. vm_compute. reflexivity.
  - apply rest_by. vm_compute. reflexivity.
  - assert (G : forall h : list (event nat), forallb (fun e => match e with EPan id _ _ => match nth_error h id with Some (EInv _ _ o) => negb (grows o) | _ => false end | _ => true end) h = true ->
      forall id r o m, panicked h id r o m -> grows o = false).
    { intros h H id r o m (t & P1 & P2). rewrite forallb_forall in H. specialize (H _ (nth_error_In _ _ P2)). simpl in H. rewrite P1 in H. now apply negb_true_iff. }
    apply G. vm_compute. reflexivity.
  - apply (is_list_by ex false false [5] 2 8 _ _ alone_execution). vm_compute. reflexivity.
Qed.

Print Assumptions C27_step.
Print Assumptions C27_run.
Print Assumptions C27_ends.
