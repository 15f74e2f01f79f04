(** * Endless executions: which calls end. *)

From Coq Require Import List Arith Bool Lia.
From Verif.Model Require Import Prog Mem Deps State Elem Vec Excl Machine.
From Verif Require Import Client Spec Fair.
From Verif.Logic Require Import Inv WP Post Specs Ops Sound Shape Clients Hist Locks Facts Complete Trace Stuck Progress.
Import ListNotations.
Local Arguments Nat.leb : simpl never.
Local Arguments Nat.ltb : simpl never.
Local Arguments Nat.eqb : simpl never.
Local Arguments Nat.add : simpl never.
Local Arguments Nat.sub : simpl never.
Local Arguments Nat.max : simpl never.

Section Live.
  Context {V : Type} (E : env V) (ro nl : bool) (l0 : list V) (c0 m0 : nat).
  Notation execution := (execution E ro nl l0 c0 m0).
  Implicit Types (c : cfg V) (p : prog V (ret V)).
  Notation a0 := (abs0 l0 m0).
  Notation P := (client E ro nl (length l0)).

  Lemma ended_dec (h : list (event V)) id : ended h id \/ ~ ended h id.
  Proof.
    destruct (existsb (is_end id) h) eqn:B.
    - left. apply existsb_exists in B. exact B.
    - right. intros (e & H1 & H2). assert (existsb (is_end id) h = true) by (apply existsb_exists; eauto). congruence.
  Qed.
  Lemma ended_open (h : list (event V)) id t o : ended h id -> open h id t o -> False.
  Proof.
    intros (e & H1 & H2) [_ O]. assert (existsb (is_end id) h = true) by (apply existsb_exists; eauto). congruence.
  Qed.

  (** ** one step *)
  Lemma exec_nodup c : execution c -> NoDup (map fst (run c)).
  Proof. intros X. destruct (execution_world _ _ _ _ _ _ c X) as (snap & g & W). apply (gi_nodup _ _ _ _ _ _ _ _ (w_gi _ _ _ _ _ _ _ _ W)). Qed.
  Lemma run_open c t x : execution c -> lookup t (run c) = Some x -> open (hist c) (c_id x) t (c_op x).
  Proof.
    intros X Lk. destruct (execution_world _ _ _ _ _ _ c X) as (snap & g & W).
    apply (gi_run _ _ _ _ _ _ _ _ (w_gi _ _ _ _ _ _ _ _ W) t x Lk).
  Qed.
  Lemma open_run c id t o : execution c -> open (hist c) id t o -> exists x, lookup t (run c) = Some x /\ c_id x = id /\ c_op x = o.
  Proof.
    intros X O. destruct (execution_world _ _ _ _ _ _ c X) as (snap & g & W). pose proof (w_gi _ _ _ _ _ _ _ _ W) as G.
    destruct (gi_open _ _ _ _ _ _ _ _ G id t o O) as (x & Lk & Hx). exists x. split; [assumption|]. split; [assumption|].
    destruct (gi_run _ _ _ _ _ _ _ _ G t x Lk) as [[O1 _] _]. destruct O as [O _]. rewrite Hx in O1. congruence.
  Qed.

  (** a step of another thread leaves a call where it is *)
  Lemma other_step c l c' t x : execution c -> lookup t (run c) = Some x -> step E c l = Next c' -> l <> LStep t ->
    lookup t (run c') = Some x.
  Proof.
    intros X Lk S N. apply (step_lookup E c l c' t x (exec_nodup c X) S); [|assumption].
    destruct l as [u o|u| |k]; simpl; try tauto.
    - intros Q. subst u. simpl in S. rewrite Lk in S. discriminate.
    - intros Q. subst u. now apply N.
  Qed.

  (** a step of its own: it waits, goes on, or ends *)
  Lemma own_step c c' t x : execution c -> lookup t (run c) = Some x -> step E c (LStep t) = Next c' ->
    c' = c \/ (exists q, lookup t (run c') = Some (Call (c_id x) (c_op x) q) /\ child q (c_prog x)) \/ ended (hist c') (c_id x).
  Proof.
    intros X Lk S. destruct (move_or_wait E ro nl l0 c0 m0 c t x X Lk) as [S'|(d & S' & Ne)]; [left; congruence|].
    assert (d = c') by congruence. subst d. right.
    destruct (move_inv E c t x c' (exec_nodup c X) Lk S Ne) as [_ [(q & l & Lq & C & _)|[_ [(r & H)|(m & H)]]]]; [left; eauto| |];
      right; rewrite H; eexists; (split; [apply in_or_app; right; left; reflexivity|simpl; apply Nat.eqb_refl]).
  Qed.

  Lemma cap_up c l c' : execution c -> step E c l = Next c' -> cap (sh c) <= cap (sh c').
  Proof.
    intros X S. destruct (execution_world _ _ _ _ _ _ c X) as (snap & g & W).
    pose proof (gi_inv _ _ _ _ _ _ _ _ (w_gi _ _ _ _ _ _ _ _ W)) as Iv.
    assert (A : forall t (a : act V) y s' l, exec E t a (sh c) = Done y s' l -> cap (sh c) <= cap s').
    { intros t a y s' l' H. destruct a; simpl in H; unfold with_slot in H;
        repeat match goal with
               | H : context [if ?b then _ else _] |- _ => let Q := fresh "Q" in destruct b eqn:Q
               | H : context [match ?b with _ => _ end] |- _ => let Q := fresh "Q" in destruct b eqn:Q
               end; try discriminate; injection H as <- <- <-; simpl; try lia.
      all: match goal with H : policy _ _ _ _ = Some _ |- _ => pose proof (ok_pol' _ (proj1 X) _ _ _ _ (i_cap _ _ _ _ Iv) H); lia end. }
    destruct l as [t o|t| |k]; simpl in S.
    - destruct (lookup t (run c)) eqn:Lk; [discriminate|]. destruct (has_grant o (given c)); [|discriminate]. injection S as <-. simpl. lia.
    - unfold step_thread in S. destruct (lookup t (run c)) as [y|] eqn:Lk; [|discriminate].
      destruct (c_prog y) as [r|m'|a k|a ag k] eqn:Hp.
      + injection S as <-. simpl. lia.
      + injection S as <-. simpl. lia.
      + destruct (exec E t a (sh c)) eqn:Ex; [|discriminate]. injection S as <-. simpl. eapply A; eauto.
      + destruct (exec E t a (sh c)) eqn:Ex; [|discriminate]. destruct (ag x); injection S as <-; simpl; [lia|]. eapply A; eauto.
    - destruct (run c); [|discriminate]. unfold clear in S. destruct (resv (sh c) <=? cap (sh c)); [|discriminate]. injection S as <-. simpl. lia.
    - destruct (run c); [|discriminate]. unfold reserve_maximum_capacity in S.
      destruct (reserve E (cap (sh c)) (maxc (sh c)) k); injection S as <-; simpl; lia.
  Qed.

  (** ** time *)
  Section Time.
    Context (cs : nat -> cfg V) (ls : nat -> option (label V)).
    Hypothesis N : endless E P cs ls.
    Hypothesis X0 : execution (cs 0).

    Lemma exec_at n : execution (cs n).
    Proof.
      induction n as [|n IH]; [assumption|]. pose proof (N n) as T. unfold tick in T. destruct (ls n) as [l|]; [|now rewrite T].
      destruct T as [C S]. eapply execution_step; eauto.
    Qed.
    Lemma hist_at n m : n <= m -> exists h', hist (cs m) = hist (cs n) ++ h'.
    Proof.
      intros H. induction H as [|m H IH]; [exists []; now rewrite app_nil_r|]. destruct IH as (h' & IH).
      pose proof (N m) as T. unfold tick in T. destruct (ls m) as [l|]; [|rewrite T; eauto].
      destruct T as [C S]. destruct (step_hist E _ _ _ S) as [->|(e & ->)]; [eauto|]. rewrite IH, <- app_assoc. eauto.
    Qed.
    Lemma ended_later n m id : n <= m -> ended (hist (cs n)) id -> ended (hist (cs m)) id.
    Proof. intros H (e & H1 & H2). destruct (hist_at n m H) as (h' & ->). exists e. split; [apply in_or_app; auto|assumption]. Qed.
    Lemma accs_later n m id a : n <= m -> In a (accs id (hist (cs n))) -> In a (accs id (hist (cs m))).
    Proof. intros H Hin. destruct (hist_at n m H) as (h' & ->). rewrite accs_app. apply in_or_app. auto. Qed.

    (** a running call goes on running until it ends *)
    Lemma open_later n m id t o : n <= m -> open (hist (cs n)) id t o -> ended (hist (cs m)) id \/ open (hist (cs m)) id t o.
    Proof.
      intros H O. destruct (ended_dec (hist (cs m)) id) as [D|D]; [auto|]. right. destruct (hist_at n m H) as (h' & Hh). destruct O as [O1 O2].
      split; [rewrite Hh, nth_error_app1; [assumption|eapply nth_lt; eauto]|].
      destruct (existsb (is_end id) (hist (cs m))) eqn:B; [|reflexivity]. destruct D. apply existsb_exists in B. exact B.
    Qed.
    Lemma cap_later n m : n <= m -> cap (sh (cs n)) <= cap (sh (cs m)).
    Proof.
      intros H. induction H as [|m H IH]; [lia|]. pose proof (N m) as T. unfold tick in T. destruct (ls m) as [l|]; [|now rewrite T].
      destruct T as [_ S]. pose proof (cap_up _ _ _ (exec_at m) S). lia.
    Qed.

    (** when a thread makes its next step, its call is where it was *)
    Lemma next_turn n m t x : n <= m -> ls m = Some (LStep t) -> lookup t (run (cs n)) = Some x ->
      exists k, n <= k <= m /\ ls k = Some (LStep t) /\ lookup t (run (cs k)) = Some x.
    Proof.
      intros H. remember (m - n) as d eqn:Hd. revert n H Hd. induction d as [|d IH]; intros n H Hd Hl Lk.
      - assert (n = m) by lia. subst n. exists m. auto.
      - assert (K : ls n = Some (LStep t) \/ lookup t (run (cs (S n))) = Some x).
        { pose proof (N n) as T. unfold tick in T. destruct (ls n) as [l|]; [|right; now rewrite T].
          assert (Q : l = LStep t \/ l <> LStep t).
          { destruct l as [u o|u| |k]; try (right; discriminate). destruct (Nat.eq_dec u t) as [->|]; [auto|right; congruence]. }
          destruct Q as [->|Q]; [auto|]. right. destruct T as [_ S]. exact (other_step (cs n) l _ t x (exec_at n) Lk S Q). }
        destruct K as [K|K]; [exists n; auto with arith|].
        destruct (IH (S n)) as (k & Hk & K1 & K2); [lia|lia|assumption|assumption|]. exists k. split; [lia|auto].
    Qed.

    (** ** calls that do not wait *)
    Lemma no_wait_ends n t x : (forall m y, n <= m -> lookup t (run (cs m)) = Some y -> c_id y = c_id x -> c_op y = c_op x -> step E (cs m) (LStep t) <> Next (cs m)) ->
      (forall n, exists m, n <= m /\ (ls m = Some (LStep t) \/ ended (hist (cs m)) (c_id x))) ->
      lookup t (run (cs n)) = Some x -> exists m, n <= m /\ ended (hist (cs m)) (c_id x).
    Proof.
      intros Nw F Lk. remember (c_prog x) as p eqn:Hp. revert n x Nw F Lk Hp.
      induction (child_wf p) as [p _ IH]. intros n x Nw F Lk Hp.
      destruct (F n) as (m & Hm & [Hl|Hd]); [|eauto].
      destruct (next_turn n m t x Hm Hl Lk) as (k & Hk & Hlk & Lkk).
      pose proof (N k) as T. unfold tick in T. rewrite Hlk in T. destruct T as [_ S].
      destruct (own_step _ _ _ _ (exec_at k) Lkk S) as [Q|[(q & Lq & C)|D]].
      - exfalso. apply (Nw k x); [lia|assumption|reflexivity|reflexivity|]. congruence.
      - destruct (IH q) with (n := Datatypes.S k) (x := Call (c_id x) (c_op x) q) as (m' & Hm' & D).
        + rewrite Hp. exact C.
        + intros m' y H'. apply Nw. lia.
        + exact F.
        + exact Lq.
        + reflexivity.
        + exists m'. split; [lia|exact D].
      - exists (Datatypes.S k). split; [lia|exact D].
    Qed.

    (** ** fair executions without new calls *)
    Hypothesis F : fair cs ls.

    Lemma fair_rest : nl = true -> (forall n t o, ls n <> Some (LInv t o)) -> (forall n, ~ overrun (hist (cs n))) ->
      exists n, run (cs n) = [].
    Proof.
      intros Hnl Ni Np. set (ts := map fst (run (cs 0))).
      assert (Nt : NoDup ts) by (apply exec_nodup, X0).
      assert (Hts : forall u x, lookup u (run (cs 0)) = Some x -> In u ts).
      { intros u x Lu. apply (lookup_in u (run (cs 0)) x) in Lu. apply in_map_iff. exists (u, x). auto. }
      remember (progs ts (cs 0)) as l eqn:Hl. clearbody ts. revert Hts Hl. generalize 0 as n.
      induction (one_less_wf less less_wf l) as [l _ IH]. intros n Hts Hl.
      destruct (run (cs n)) as [|[t x] r] eqn:R; [eauto|]. rewrite <- R in Hts.
      assert (Lk : lookup t (run (cs n)) = Some x) by (rewrite R; simpl; now rewrite Nat.eqb_refl).
      destruct (someone_moves E ro nl l0 c0 m0 (cs n) t x (exec_at n) Hnl Lk (Np n)) as (u & z & Lu & M).
      destruct (F n (c_id z) u (c_op z) (run_open _ _ _ (exec_at n) Lu)) as (m & Hm & Hlm).
      assert (K : forall d n, m - n = d -> n <= m -> (forall u x, lookup u (run (cs n)) = Some x -> In u ts) -> l = progs ts (cs n) ->
                lookup u (run (cs n)) = Some z -> can_move E (cs n) u -> exists k, run (cs k) = []).
      { clear n Hts Hl R Lk Lu M Hm. induction d as [|d IHd]; intros n Hd Hn Hts Hl Lu M.
        - assert (n = m) by lia. subst n. pose proof (N m) as T. unfold tick in T. rewrite Hlm in T. destruct T as [_ S].
          destruct M as (c' & S' & Ne). assert (c' = cs (Datatypes.S m)) by congruence. subst c'.
          destruct (move_less E ts (cs m) u _ Nt (exec_nodup _ (exec_at m)) Hts S Ne) as [D Hts'].
          apply (IH (progs ts (cs (Datatypes.S m)))) with (n := Datatypes.S m); [now rewrite Hl|assumption|reflexivity].
        - assert (St : cs (Datatypes.S n) = cs n -> exists k, run (cs k) = []).
          { intros Q. apply (IHd (Datatypes.S n)); try lia; rewrite Q; assumption. }
          pose proof (N n) as T. unfold tick in T. destruct (ls n) as [lb|] eqn:Hlb; [|now apply St]. destruct T as [_ S].
          destruct lb as [w o|w| |k].
          + now apply Ni in Hlb.
          + assert (Lw : exists y, lookup w (run (cs n)) = Some y).
            { simpl in S. unfold step_thread in S. destruct (lookup w (run (cs n))); [eauto|discriminate]. }
            destruct Lw as (y & Lw). destruct (move_or_wait E ro nl l0 c0 m0 (cs n) w y (exec_at n) Lw) as [S'|(c' & S' & Ne)].
            * apply St. congruence.
            * assert (c' = cs (Datatypes.S n)) by congruence. subst c'.
              destruct (move_less E ts (cs n) w _ Nt (exec_nodup _ (exec_at n)) Hts S Ne) as [D Hts'].
              apply (IH (progs ts (cs (Datatypes.S n)))) with (n := Datatypes.S n); [now rewrite Hl|assumption|reflexivity].
          + simpl in S. destruct (run (cs n)); [discriminate|discriminate].
          + simpl in S. destruct (run (cs n)); [discriminate|discriminate]. }
      apply (K (m - n) n); auto.
    Qed.

    (** ** growth calls *)
    Hypothesis Np : forall n, ~ overrun (hist (cs n)).

    Lemma add_order h snap j k id t b n id' t' b' n' i : explained E ro nl l0 m0 snap h ->
      nth_error h j = Some (EAcc id t (AcAdd b n)) -> nth_error h k = Some (EAcc id' t' (AcAdd b' n')) -> epoch h j = epoch h k ->
      b <= i < b + n -> b' <= i < b' + n' -> id = id'.
    Proof.
      intros Ex H1 H2 Ep B1 B2. destruct (Nat.lt_trichotomy j k) as [L|[L|L]].
      - pose proof (h_add_order _ _ _ _ _ _ _ Ex _ _ _ _ _ _ _ _ _ _ H1 H2 Ep L). lia.
      - subst k. congruence.
      - pose proof (h_add_order _ _ _ _ _ _ _ Ex _ _ _ _ _ _ _ _ _ _ H2 H1 (eq_sym Ep) L). lia.
    Qed.

    Lemma growth_ends b : forall n t x, lookup t (run (cs n)) = Some x -> grows (c_op x) = true ->
      In (AcAdd b (request (c_op x))) (accs (c_id x) (hist (cs n))) -> exists m, n <= m /\ ended (hist (cs m)) (c_id x).
    Proof.
      induction b as [b IHb] using (well_founded_induction lt_wf). intros n t x Lk Gr Hin.
      pose proof (run_open _ _ _ (exec_at n) Lk) as On.
      (* the capacity reaches b *)
      assert (A : forall d n, b - cap (sh (cs n)) = d -> open (hist (cs n)) (c_id x) t (c_op x) ->
                In (AcAdd b (request (c_op x))) (accs (c_id x) (hist (cs n))) ->
                exists m, n <= m /\ (ended (hist (cs m)) (c_id x) \/ b <= cap (sh (cs m)))).
      { clear n Lk Hin On. induction d as [d IHd] using (well_founded_induction lt_wf). intros n Hd O Hin.
        destruct (Nat.le_gt_cases b (cap (sh (cs n)))) as [|Lb]; [eauto|].
        destruct (open_run _ _ _ _ (exec_at n) O) as (x' & Lk & Hx & Hx').
        pose proof (add_len E ro nl l0 c0 m0 (cs n) t x' b (request (c_op x)) (exec_at n) Lk ltac:(rewrite Hx; exact Hin)) as HL.
        pose proof (pos_cases E ro nl l0 c0 m0 (cs n) (cap (sh (cs n))) (exec_at n)) as Pc.
        set (i := cap (sh (cs n))) in *.
        destruct (a_pos (replay a0 (hist (cs n))) i) as [|id| |v] eqn:Hi.
        - lia.
        - destruct (reserved_grows E ro nl l0 c0 m0 (cs n) i id (exec_at n) Hi) as (u & z & b' & Lu & Hid & Gz & Hz & Hb).
          destruct (IHb b' ltac:(lia) n u z Lu Gz ltac:(rewrite Hid; exact Hz)) as (m & Hm & Dz). rewrite Hid in Dz.
          destruct (open_later n m _ _ _ Hm O) as [D|Om]; [eauto|].
          assert (Hc : i < cap (sh (cs m))).
          { pose proof (cap_later n m Hm) as Cl. fold i in Cl. destruct (Nat.eq_dec i (cap (sh (cs m)))) as [Eq|]; [exfalso|lia].
            destruct (open_run _ _ _ _ (exec_at m) Om) as (x2 & Lk2 & Hx2 & Hx2').
            pose proof (add_len E ro nl l0 c0 m0 (cs m) t x2 b (request (c_op x)) (exec_at m) Lk2 ltac:(rewrite Hx2; now apply (accs_later n m))) as HL2.
            pose proof (pos_cases E ro nl l0 c0 m0 (cs m) i (exec_at m)) as Pm.
            destruct (execution_expl _ _ _ _ _ _ _ (exec_at m)) as (snap & Ex & Hsn).
            destruct (a_pos (replay a0 (hist (cs m))) i) as [|id2| |v] eqn:Hi2.
            - lia.
            - destruct (reserved_grows E ro nl l0 c0 m0 (cs m) i id2 (exec_at m) Hi2) as (u2 & z2 & b2 & Lu2 & Hid2 & Gz2 & Hz2 & Hb2).
              assert (Eid : id = id2).
              { pose proof (run_open _ _ _ (exec_at m) Lu2) as O2. rewrite Hid2 in O2.
                apply (accs_later n m id _ Hm) in Hz.
                rewrite <- (firstn_all (hist (cs m))) in Hz, Hz2. apply accs_firstn in Hz, Hz2.
                destruct Hz as (j & w & Hj & Ej), Hz2 as (j2 & w2 & Hj2 & Ej2).
                eapply (add_order _ _ _ _ _ _ _ _ _ _ _ _ i Ex Ej Ej2); [|exact Hb|exact Hb2].
                (* both in the current epoch *)
                pose proof Om as Om'. pose proof O2 as O2'. rewrite <- (firstn_all (hist (cs m))) in Om', O2'.
                destruct (h_open _ _ _ _ _ _ _ Ex (length (hist (cs m))) _ _ _ (le_n _) Om') as (Q1 & Q2 & Q3 & _).
                destruct (h_open _ _ _ _ _ _ _ Ex (length (hist (cs m))) _ _ _ (le_n _) O2') as (R1 & R2 & R3 & _).
                destruct (h_acc _ _ _ _ _ _ _ Ex j _ _ _ Ej) as (o3 & S1 & S2 & S3 & _).
                destruct (h_acc _ _ _ _ _ _ _ Ex j2 _ _ _ Ej2) as (o4 & T1 & T2 & T3 & _).
                (* call [id] was running at time n *)
                pose proof (run_open _ _ _ (exec_at n) Lu) as Oz. rewrite Hid in Oz.
                destruct (hist_at n m Hm) as (h' & Hh).
                assert (Hf : firstn (length (hist (cs n))) (hist (cs m)) = hist (cs n)) by (rewrite Hh, firstn_app, Nat.sub_diag, firstn_all; simpl; apply app_nil_r).
                assert (Ln : length (hist (cs n)) <= length (hist (cs m))) by (rewrite Hh, app_length; lia).
                rewrite <- Hf in Oz, O.
                destruct (h_open _ _ _ _ _ _ _ Ex (length (hist (cs n))) _ _ _ Ln Oz) as (U1 & U2 & U3 & _).
                destruct (h_open _ _ _ _ _ _ _ Ex (length (hist (cs n))) _ _ _ Ln O) as (W1 & W2 & W3 & _).
                congruence. }
              rewrite <- Eid in Pm. destruct Pm as (w & o & Ow). eapply ended_open; eauto.
            - apply (Np m). apply (beyond_over E ro nl l0 c0 m0 (cs m) i (exec_at m) Hi2). lia.
            - destruct (execution_world _ _ _ _ _ _ _ (exec_at m)) as (snap' & g & W). pose proof (w_gi _ _ _ _ _ _ _ _ W) as G.
              pose proof (gi_pos _ _ _ _ _ _ _ _ G i) as Q. unfold Sound.a0 in Q. rewrite Hi2 in Q. simpl in Q.
              pose proof (i_slot _ _ _ _ (gi_inv _ _ _ _ _ _ _ _ G) i) as Sl.
              destruct (g i) as [| | | | | |w [| |]]; try contradiction; destruct Sl as [Sl _]; lia. }
          destruct (IHd (b - cap (sh (cs m)))) with (n := m) as (m' & Hm' & Q); [lia|reflexivity|assumption|now apply (accs_later n m)|].
          exists m'. split; [lia|assumption].
        - destruct (Np n). exact (beyond_over E ro nl l0 c0 m0 (cs n) i (exec_at n) Hi (le_n _)).
        - exfalso. destruct (execution_world _ _ _ _ _ _ _ (exec_at n)) as (snap' & g & W). pose proof (w_gi _ _ _ _ _ _ _ _ W) as G.
          pose proof (gi_pos _ _ _ _ _ _ _ _ G i) as Q. unfold Sound.a0 in Q. rewrite Hi in Q. simpl in Q.
          pose proof (i_slot _ _ _ _ (gi_inv _ _ _ _ _ _ _ _ G) i) as Sl.
          destruct (g i) as [| | | | | |w [| |]]; try contradiction; destruct Sl as [Sl _]; unfold i in *; lia. }
      destruct (A _ n eq_refl On Hin) as (m & Hm & [D|Hb]); [eauto|].
      destruct (open_later n m _ _ _ Hm On) as [D|Om]; [eauto|].
      destruct (open_run _ _ _ _ (exec_at m) Om) as (y & Ly & Hy & Hy'). apply (accs_later n m _ _ Hm) in Hin.
      destruct (no_wait_ends m t y) as (m' & Hm' & D).
      - intros k y' Hk Ly' Hi Ho S.
        destruct (waiting_for E ro nl l0 c0 m0 (cs k) t (exec_at k) S) as (y2 & snap & g & W & L2 & Q). rewrite Ly' in L2. injection L2 as <-.
        apply (accs_later m k _ _ Hk) in Hin. pose proof (cap_later m k Hk) as Cl.
        assert (Bx : forall b', In (AcAdd b' (request (c_op y'))) (accs (c_id y') (hist (cs k))) -> cap (sh (cs k)) < b' -> False).
        { intros b' Hb' Lb'. destruct (execution_base E ro nl l0 c0 m0 (cs k) (exec_at k) t y' Ly') as [(_ & _ & Na)|(b2 & _ & _ & _ & _ & H3)].
          - now apply Na in Hb'.
          - apply H3 in Hb'. rewrite Hi, Hy in H3. apply H3 in Hin. lia. }
        destruct Q as [(u & z & _ & _ & _ & _ & [(i & _ & _ & Tx & _)|(_ & b' & Hb' & Lb' & _)])|[(Ss & _)|(_ & b' & Hb' & Lb' & _)]].
        + rewrite Ho, Hy' in Tx. destruct (c_op x); try discriminate; contradiction.
        + eapply Bx; eauto.
        + rewrite Ho, Hy' in Ss. destruct (c_op x); discriminate.
        + eapply Bx; eauto.
      - intros k. destruct (Nat.le_ge_cases m k) as [Hk|Hk].
        + rewrite Hy. destruct (open_later m k _ _ _ Hk Om) as [D|Ok]; [eauto|]. destruct (F k _ _ _ Ok) as (j & Hj & Hl). eauto.
        + destruct (F m _ _ _ Om) as (j & Hj & Hl). exists j. split; [lia|auto].
      - exact Ly.
      - exists m'. split; [lia|]. now rewrite <- Hy.
    Qed.
  End Time.
End Live.
