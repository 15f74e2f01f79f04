(** * C21, C42, C43: endless executions, bounded numbers of steps, starvation. *)

From Coq Require Import List Arith Bool Lia.
From Verif.Model Require Import Prog Mem Deps State Elem Vec Excl Machine.
From Verif Require Import Client Spec Fair.
From Verif.Logic Require Import Inv WP Post Specs Ops Sound Shape Clients Hist Locks Facts Complete Trace Stuck Progress Live Cost.
From Verif.Properties Require Import Examples.
Require Import Verif.Properties.Progress.
Import ListNotations.

Section Steps.
  Context {V : Type} (E : env V) (ro nl : bool) (l0 : list V) (c0 m0 : nat) (c : cfg V).
  Hypothesis X : execution E ro nl l0 c0 m0 c.
  Notation h := (hist c).
  Notation P := (client E ro nl (length l0)).
  Notation a := (replay (abs0 l0 m0) (hist c)).

  (** C42: a call that neither locks elements nor reserves positions ([len], [get], [iter], [slice],
      [split_at], ...) never waits. *)
  Theorem C42_no_wait id t o : open h id t o -> grows o = false -> (forall i, ~ touches o i) -> goes_on E c t.
  Proof.
    intros O G T. destruct (open_run _ _ _ _ _ _ _ _ _ _ X O) as (x & Lk & _ & Ho).
    destruct (move_or_wait E ro nl l0 c0 m0 c t x X Lk) as [S|M]; [exfalso|exact M].
    destruct (waiting_for E ro nl l0 c0 m0 c t X S) as (x' & snap & g & W & Lk' & Q). rewrite Lk in Lk'. injection Lk' as <-.
    rewrite Ho in Q. destruct Q as [(u & z & _ & _ & _ & _ & [(i & _ & _ & Q & _)|(Q & _)])|[(_ & _ & i & _ & _ & Q)|(Q & _)]]; try congruence;
      now apply T in Q.
  Qed.

  Lemma max_abs : maxc (sh c) = a_max a.
  Proof.
    destruct (execution_world _ _ _ _ _ _ c X) as (snap & g & W). apply (ag_max _ _ (gi_agree _ _ _ _ _ _ _ _ (w_gi _ _ _ _ _ _ _ _ W))).
  Qed.
  Lemma cost_pos (o : op V) m : 0 < cost o m.
  Proof. destruct o; simpl; lia. Qed.
  Lemma cost_left id t o : open h id t o -> exists x, left c t x (cost o (a_max a) - 1) /\ c_id x = id /\ c_op x = o.
  Proof.
    intros O. destruct (open_run _ _ _ _ _ _ _ _ _ _ X O) as (x & Lk & Hi & Ho). exists x. split; [|auto].
    pose proof (all_left E ro nl l0 c0 m0 c X t x Lk) as L. now rewrite max_abs, Ho in L.
  Qed.

  (** Every call makes a bounded number of steps that are not rounds of a busy-wait, whatever the other
      threads do: all a call can lose time with is waiting. *)
  Theorem C42_work id t o k c' : open h id t o -> work E P t c k c' -> cost o (a_max a) <= k -> ended (hist c') id.
  Proof.
    intros O W Hk. destruct (cost_left id t o O) as (x & L & <- & _). pose proof (cost_pos o (a_max a)).
    apply (left_ends E ro nl l0 c0 m0 c t x _ k c' X L W). lia.
  Qed.

  (** Wait-freedom: a call that neither locks elements nor reserves positions ends after a bounded number
      of steps of its thread, whatever the other threads do in between. *)
  Theorem C42_wait_free id t o ls c' : open h id t o -> grows o = false -> (forall i, ~ touches o i) ->
    path E P c ls c' -> cost o (a_max a) <= steps_of t ls -> ended (hist c') id.
  Proof.
    intros O G T Hp Hk. destruct (cost_left id t o O) as (x & L & <- & Ho). pose proof (cost_pos o (a_max a)).
    apply (path_ends E ro nl l0 c0 m0 t ls c x _ c' X L Hp); [|lia].
    intros d ls' _ Xd Od S. rewrite Ho in Od.
    destruct (waiting_for E ro nl l0 c0 m0 d t Xd S) as (x' & snap & g & W & Lk' & Q).
    destruct (open_run _ _ _ _ _ _ _ _ _ _ Xd Od) as (x2 & Lk2 & _ & Ho2). rewrite Lk2 in Lk'. injection Lk' as <-. rewrite Ho2 in Q.
    destruct Q as [(u & z & _ & _ & _ & _ & [(i & _ & _ & Q & _)|(Q & _)])|[(_ & _ & i & _ & _ & Q)|(Q & _)]]; try congruence; now apply T in Q.
  Qed.

  (** So does a growth call whose first position is within the capacity, or the first one beyond it. *)
  Theorem C42_growth id t o b ls c' : open h id t o -> In (AcAdd b (request o)) (accs id h) -> b <= cap (sh c) -> grows o = true ->
    path E P c ls c' -> cost o (a_max a) <= steps_of t ls -> ended (hist c') id.
  Proof.
    intros O Hin Hb G Hp Hk. destruct (cost_left id t o O) as (x & L & <- & Ho). pose proof (cost_pos o (a_max a)).
    apply (path_ends E ro nl l0 c0 m0 t ls c x _ c' X L Hp); [|lia].
    intros d ls' Hd Xd Od S. rewrite Ho in Od.
    destruct (waiting_for E ro nl l0 c0 m0 d t Xd S) as (x' & snap & g & W & Lk' & Q).
    destruct (open_run _ _ _ _ _ _ _ _ _ _ Xd Od) as (x2 & Lk2 & Hi2 & Ho2). rewrite Lk2 in Lk'. injection Lk' as <-. rewrite Ho2, Hi2 in Q.
    pose proof (path_cap E ro nl l0 c0 m0 c ls' d X Hd) as Cp.
    assert (Hin' : In (AcAdd b (request o)) (accs (c_id x) (hist d))).
    { destruct (path_hist E ro nl l0 c ls' d Hd) as (h' & ->). rewrite accs_app. apply in_or_app. auto. }
    assert (Bx : forall b', In (AcAdd b' (request o)) (accs (c_id x) (hist d)) -> cap (sh d) < b' -> False).
    { intros b' Hb' Lb'. destruct (execution_base E ro nl l0 c0 m0 d Xd t x2 Lk2) as [(_ & _ & Na)|(b2 & _ & _ & _ & _ & H3)]; rewrite Hi2 in *.
      - now apply Na in Hb'.
      - apply H3 in Hb', Hin'. lia. }
    destruct Q as [(u & z & _ & _ & _ & _ & [(i & _ & _ & Q & _)|(_ & b' & H1 & H2 & _)])|[(Q & _)|(_ & b' & H1 & H2 & _)]].
    - destruct o; try discriminate; contradiction.
    - exact (Bx b' H1 H2).
    - destruct o; discriminate.
    - exact (Bx b' H1 H2).
  Qed.
End Steps.

Section Endless.
  Context {V : Type} (E : env V) (l0 : list V) (c0 m0 : nat) (cs : nat -> cfg V) (ls : nat -> option (label V)).

  (** C21: fair executions.  If from some time on no calls are started, [swap] is not used (unless its
      handles do not wait) and no growth call panics without having made room ([overrun]), then all running calls end, however the threads are
      scheduled, provided that no thread stops for ever in the middle of a call. *)
  Theorem C21_fair : execution E false true l0 c0 m0 (cs 0) -> endless E (client E false true (length l0)) cs ls -> fair cs ls ->
    (forall n t o, ls n <> Some (LInv t o)) -> (forall n, ~ overrun (hist (cs n))) ->
    exists n, at_rest (hist (cs n)).
  Proof.
    intros X N F Ni Np. destruct (fair_rest E false true l0 c0 m0 cs ls N X F eq_refl Ni Np) as (n & R). exists n.
    apply (run_rest E false true l0 c0 m0); [|assumption]. eapply exec_at; eauto.
  Qed.

  (** C43: growth calls do not starve: in a fair execution every [push], [extend], ... ends, whatever calls
      the other threads make, if no growth call panics without having made room. *)
  Theorem C43_growth ro nl n id t o : execution E ro nl l0 c0 m0 (cs 0) -> endless E (client E ro nl (length l0)) cs ls -> fair cs ls ->
    (forall n, ~ overrun (hist (cs n))) ->
    open (hist (cs n)) id t o -> grows o = true -> exists m, n <= m /\ ended (hist (cs m)) id.
  Proof.
    intros X N F Np O G. pose proof (exec_at E ro nl l0 c0 m0 cs ls N X) as Xn.
    destruct (open_run _ _ _ _ _ _ _ _ _ _ (Xn n) O) as (x & Lk & <- & Ho).
    assert (K : forall n x, lookup t (run (cs n)) = Some x -> grows (c_op x) = true -> (exists b, In (AcAdd b (request (c_op x))) (accs (c_id x) (hist (cs n)))) ->
                exists m, n <= m /\ ended (hist (cs m)) (c_id x)).
    { intros n' x' Lk' G' (b & Hb). eapply growth_ends; eauto. }
    rewrite <- Ho in G. destruct (execution_base E ro nl l0 c0 m0 _ (Xn n) t x Lk) as [(_ & Hp & _)|(b & _ & _ & Hb & _)]; [|eauto].
    destruct (F n (c_id x) t (c_op x)) as (m & Hm & Hl); [eapply run_open; eauto|].
    destruct (next_turn E ro nl l0 c0 m0 cs ls N X n m t x Hm Hl Lk) as (k & Hk & Hlk & Lkk).
    pose proof (N k) as T. unfold tick in T. rewrite Hlk in T. destruct T as [_ S].
    destruct (grow_loops E (c_op x) G) as (kk & Hkk & _).
    destruct (own_step E ro nl l0 c0 m0 _ _ t x (Xn k) Lkk S) as [Q|[(q & Lq & C)|D]].
    - rewrite Q in S. destruct (stay_inv E (cs k) t S) as (y & a1 & ag & k1 & y1 & s' & l1 & Ly & Hpy & _). rewrite Lkk in Ly. injection Ly as <-. congruence.
    - destruct (execution_base E ro nl l0 c0 m0 _ (Xn (Datatypes.S k)) t _ Lq) as [(_ & Hq & _)|(b & _ & _ & Hb & _)].
      + simpl in Hq. exfalso. rewrite Hp, <- Hq in C. pose proof (no_loop q) as NL. unfold child in C. destruct q; try contradiction; destruct C as (y & C); now apply (NL y).
      + destruct (K _ _ Lq G) as (m' & Hm' & D); [simpl in Hb |- *; eauto|]. exists m'. split; [lia|exact D].
    - exists (Datatypes.S k). split; [lia|assumption].
  Qed.
End Endless.

(** ** C43: calls that lock elements can starve

    An endless fair execution: thread 1 clones element 0 over and over again, and thread 2, in
    [set(9)] on the same element, always looks at the element while thread 1 holds it. *)
Definition vs_start : cfg nat := final [5] (calls 0 (OGet 0) ++ begin 2 (OElem 0 (ESet 9)) 0).
Definition vs_round : list (label nat) :=
  [LInv 1 (OElem 0 ECloned); LStep 1; LStep 2; LStep 1; LStep 1; LStep 1; LStep 1].
Definition vs_label (n : nat) : label nat := nth (n mod 7) vs_round (LStep 2).
Fixpoint vs (n : nat) : cfg nat :=
  match n with
  | 0 => vs_start
  | S n => match step ex (vs n) (vs_label n) with Next d => d | _ => vs n end
  end.
Definition vs_labels (n : nat) : option (label nat) := Some (vs_label n).

Definition vs_inv (c : cfg nat) : Prop :=
  exists r w m sl h g, c = Cfg (Shared r w 2 m None sl) [(2, Call 5 (OElem 0 (ESet 9)) (op_prog ex (OElem 0 (ESet 9))))] h g /\
    sl 0 = filled 5 /\ existsb (grant_eqb (GElem 0)) g = true /\ requested 1 h = 1 /\ existsb is_pan h = false.

Lemma vs_steps c : vs_inv c -> exists d, path ex (client ex false false 1) c vs_round d /\ vs_inv d.
Proof.
  intros (r & w & m & sl & h & g & -> & Hs & Hg & Hr & Hn).
  eexists. split.
  - assert (G : forall c, client ex false false 1 c (LStep 1)) by (intros; exact I).
    assert (G2 : forall c, client ex false false 1 c (LStep 2)) by (intros; exact I).
    cbn [path vs_round].
    split; [apply okb_client; unfold okb; cbn [hist request]; rewrite Hr; vm_compute; reflexivity|].
    eexists. split; [cbn -[Nat.ltb wmod op_prog]; rewrite Hg; reflexivity|].
    split; [apply G|]. eexists. split; [cbn; rewrite Hs; cbn; reflexivity|].
    split; [apply G2|]. eexists. split; [cbn; reflexivity|].
    split; [apply G|]. eexists. split; [cbn; reflexivity|].
    split; [apply G|]. eexists. split; [cbn; reflexivity|].
    split; [apply G|]. eexists. split; [cbn; reflexivity|].
    split; [apply G|]. eexists. split; [cbn; reflexivity|]. reflexivity.
  - unfold vs_inv. do 6 eexists. split; [reflexivity|]. cbn. split; [reflexivity|]. split; [rewrite app_nil_r; assumption|].
    rewrite !existsb_app, Hn. split; [|reflexivity]. unfold requested in *. rewrite !fold_left_app. cbn. rewrite Hr. reflexivity.
Qed.

Lemma path_follow P (cs : nat -> cfg nat) (lb : nat -> label nat) (HS : forall n d, step ex (cs n) (lb n) = Next d -> cs (S n) = d) ls :
  forall n d, path ex P (cs n) ls d -> (forall i l, nth_error ls i = Some l -> lb (n + i) = l) ->
  cs (n + length ls) = d /\ forall i, i < length ls -> P (cs (n + i)) (lb (n + i)) /\ step ex (cs (n + i)) (lb (n + i)) = Next (cs (S (n + i))).
Proof.
  induction ls as [|l ls IH]; intros n d; cbn [path].
  - intros -> _. split; [f_equal; simpl; lia|intros i H; simpl in H; lia].
  - intros (C & d' & Hd & Hp) L. pose proof (L 0 l eq_refl) as L0. rewrite Nat.add_0_r in L0. rewrite <- L0 in C, Hd.
    pose proof (HS n d' Hd) as Q. rewrite <- Q in Hp. destruct (IH (S n) d Hp) as [I1 I2].
    { intros i l' H. rewrite <- (L (S i) l' H). f_equal. lia. }
    split; [rewrite <- I1; f_equal; simpl; lia|]. intros [|i] H.
    + rewrite Nat.add_0_r. rewrite Q. auto.
    + simpl in H. replace (n + S i) with (S n + i) by lia. apply I2. lia.
Qed.
Lemma vs_S n d : step ex (vs n) (vs_label n) = Next d -> vs (S n) = d.
Proof. intros H. cbn [vs]. now rewrite H. Qed.
Lemma vs_period q i l : nth_error vs_round i = Some l -> vs_label (7 * q + i) = l.
Proof.
  intros H. assert (i < 7) by (change 7 with (length vs_round); apply nth_error_Some; congruence).
  unfold vs_label. replace (7 * q + i) with (i + q * 7) by lia. rewrite Nat.mod_add, Nat.mod_small by lia. now apply nth_error_nth.
Qed.
Lemma vs_rounds q : vs_inv (vs (7 * q)).
Proof.
  induction q as [|q IH].
  - do 6 eexists. split; [vm_compute; reflexivity|]. repeat (split; [reflexivity|]). reflexivity.
  - destruct (vs_steps _ IH) as (d & Hp & Hd). destruct (path_follow _ vs vs_label vs_S _ (7 * q) d Hp (vs_period q)) as [Q _].
    replace (7 * S q) with (7 * q + length vs_round) by (simpl; lia). now rewrite Q.
Qed.
Lemma vs_endless : endless ex (client ex false false 1) vs vs_labels.
Proof.
  intros n. unfold tick, vs_labels. destruct (vs_steps _ (vs_rounds (n / 7))) as (d & Hp & Hd).
  destruct (path_follow _ vs vs_label vs_S _ (7 * (n / 7)) d Hp (vs_period (n / 7))) as [_ Q].
  pose proof (Nat.div_mod n 7 ltac:(lia)) as D. pose proof (Nat.mod_upper_bound n 7 ltac:(lia)).
  specialize (Q (n mod 7) ltac:(change (length vs_round) with 7; lia)). now rewrite <- D in Q.
Qed.
Lemma vs_execution n : execution ex false false [5] 2 8 (vs n).
Proof.
  apply (exec_at ex false false [5] 2 8 vs vs_labels vs_endless). apply ex_final; vm_compute; reflexivity.
Qed.
Lemma vs_threads n t x : lookup t (run (vs n)) = Some x -> t = 1 \/ t = 2.
Proof.
  revert t x. induction n as [|n IH]; intros t x.
  - change (run (vs 0)) with [(2, Call 5 (OElem 0 (ESet 9)) (op_prog ex (OElem 0 (ESet 9))))]. simpl. destruct (t =? 2) eqn:B; [|discriminate].
    apply Nat.eqb_eq in B. auto.
  - pose proof (vs_endless n) as T. unfold tick, vs_labels in T. destruct T as [_ T]. intros Lk. remember (vs (S n)) as d eqn:Hd. clear Hd.
    assert (L : vs_label n = LInv 1 (OElem 0 ECloned) \/ exists u, vs_label n = LStep u).
    { unfold vs_label. pose proof (Nat.mod_upper_bound n 7 ltac:(lia)). destruct (n mod 7) as [|[|[|[|[|[|[|]]]]]]]; try (simpl; eauto; fail). lia. }
    destruct L as [L|(u & L)]; rewrite L in T; cbn [step] in T.
    + destruct (lookup 1 (run (vs n))); [discriminate|]. destruct (has_grant _ _); [|discriminate]. injection T as T. rewrite <- T in Lk. simpl in Lk.
      destruct (t =? 1) eqn:B; [apply Nat.eqb_eq in B; auto|eauto].
    + unfold step_thread in T. destruct (lookup u (run (vs n))) as [y|] eqn:Lu; [|discriminate].
      assert (K : lookup t (remove u (run (vs n))) = Some x -> t = 1 \/ t = 2).
      { intros H. destruct (Nat.eq_dec t u) as [->|Ne]; [eauto|]. rewrite lookup_remove_other in H by congruence. eauto. }
      assert (K2 : forall z l, lookup t ((u, z) :: remove u l) = Some x -> (lookup t (remove u l) = Some x -> t = 1 \/ t = 2) -> t = 1 \/ t = 2).
      { intros z l. simpl. destruct (t =? u) eqn:B; [|auto]. apply Nat.eqb_eq in B. subst. eauto. }
      destruct (c_prog y).
      * injection T as T. rewrite <- T in Lk. auto.
      * injection T as T. rewrite <- T in Lk. auto.
      * destruct (exec ex u a _); [|discriminate]. injection T as T. rewrite <- T in Lk. exact (K2 _ _ Lk K).
      * destruct (exec ex u a _); [|discriminate]. destruct (again x0); injection T as T; rewrite <- T in Lk; [eauto|exact (K2 _ _ Lk K)].
Qed.
Lemma vs_fair : fair vs vs_labels.
Proof.
  intros n id t o O. destruct (open_run _ _ _ _ _ _ _ _ _ _ (vs_execution n) O) as (x & Lk & _ & _).
  assert (L : n <= 7 * n) by lia. unfold vs_labels. destruct (vs_threads _ _ _ Lk) as [->| ->].
  - exists (7 * n + 1). split; [lia|]. f_equal. now apply vs_period.
  - exists (7 * n + 2). split; [lia|]. f_equal. now apply vs_period.
Qed.

Lemma vs_no_pan n : existsb is_pan (hist (vs n)) = false.
Proof.
  destruct (existsb is_pan (hist (vs n))) eqn:B; [|reflexivity].
  destruct (hist_at ex false false [5] vs vs_labels vs_endless n (7 * n) ltac:(lia)) as (h' & Hh).
  destruct (vs_rounds n) as (r & w & m & sl & h & g & Q & _ & _ & _ & Hn). rewrite Q in Hh. simpl in Hh. rewrite Hh, existsb_app, B in Hn. discriminate.
Qed.
Lemma vs_open n : open (hist (vs n)) 5 2 (OElem 0 (ESet 9)).
Proof.
  assert (Z : open (hist (vs 0)) 5 2 (OElem 0 (ESet 9))) by (split; vm_compute; reflexivity).
  destruct (open_later ex false false [5] vs vs_labels vs_endless 0 n 5 2 _ ltac:(lia) Z) as [D|D]; [exfalso|assumption].
  apply (ended_later ex false false [5] vs vs_labels vs_endless n (7 * n)) in D; [|lia].
  destruct (vs_rounds n) as (r & w & m & sl & h & g & Q & _).
  assert (Lk : lookup 2 (run (vs (7 * n))) = Some (Call 5 (OElem 0 (ESet 9)) (op_prog ex (OElem 0 (ESet 9))))) by now rewrite Q.
  exact (ended_open _ _ _ _ D (run_open ex false false [5] 2 8 _ _ _ (vs_execution (7 * n)) Lk)).
Qed.

Theorem C43_starvation_refuted : exists (cs : nat -> cfg nat) ls,
  execution ex false false [5] 2 8 (cs 0) /\ endless ex (client ex false false 1) cs ls /\ fair cs ls /\
  (forall n, ~ overrun (hist (cs n))) /\
  exists id, forall n, open (hist (cs n)) id 2 (OElem 0 (ESet 9)).
Proof.
  exists vs, vs_labels. split; [apply (vs_execution 0)|]. split; [apply vs_endless|]. split; [apply vs_fair|].
  split; [|exists 5; exact vs_open]. intros n. apply no_over, vs_no_pan.
Qed.

(** ** Examples *)
Lemma go_path ro nl n0 ls : forall c d, go ex ro nl n0 c ls = Some d -> path ex (client ex ro nl n0) c ls d.
Proof.
  induction ls as [|l ls IH]; intros c d; cbn [go path]; [now intros [= ->]|]. destruct (okb ex ro nl n0 c l) eqn:O; [|discriminate].
  destruct (step ex c l) as [e| |] eqn:S; try discriminate. intros G. split; [now apply okb_client|]. eauto.
Qed.

(** A list of labels followed by idling. *)
Section Idle.
  Context (ro nl : bool) (l0 : list nat) (c : cfg nat) (ls : list (label nat)).
  Definition then_idle (n : nat) : cfg nat := match go ex ro nl (length l0) c (firstn n ls) with Some d => d | None => c end.
  Definition idle_label (n : nat) : option (label nat) := nth_error ls n.
  Definition isstep (t : nat) (l : label nat) : bool := match l with LStep u => u =? t | _ => false end.
  Definition fairb : bool :=
    match go ex ro nl (length l0) c ls with Some _ => true | None => false end &&
    forallb (fun n => forallb (fun tx => existsb (isstep (fst tx)) (skipn n ls)) (run (then_idle n))) (seq 0 (S (length ls))).

  Lemma go_app n0 l1 l2 : forall c, go ex ro nl n0 c (l1 ++ l2) = match go ex ro nl n0 c l1 with Some d => go ex ro nl n0 d l2 | None => None end.
  Proof.
    induction l1 as [|l l1 IH]; intros c'; cbn [go app]; [reflexivity|]. destruct (okb ex ro nl n0 c' l); [|reflexivity].
    destruct (step ex c' l); auto.
  Qed.
  Lemma firstn_S (A : Type) n (l : list A) x : nth_error l n = Some x -> firstn (S n) l = firstn n l ++ [x].
  Proof.
    revert l. induction n as [|n IH]; intros [|y l]; simpl; try discriminate; [now intros [= ->]|]. intros H. f_equal. now apply IH.
  Qed.
  Lemma lookup_in t (r : list (nat * call nat)) x : lookup t r = Some x -> In (t, x) r.
  Proof.
    induction r as [|[u y] r IH]; simpl; [discriminate|]. destruct (t =? u) eqn:B; [apply Nat.eqb_eq in B; intros [= ->]; left; congruence|auto].
  Qed.
  Lemma idle_fair : execution ex ro nl l0 2 8 c -> fairb = true ->
    then_idle 0 = c /\ endless ex (client ex ro nl (length l0)) then_idle idle_label /\ fair then_idle idle_label.
  Proof.
    intros X. unfold fairb. intros F. apply andb_true_iff in F. destruct F as [F1 F2].
    destruct (go ex ro nl (length l0) c ls) as [d|] eqn:G; [clear F1|discriminate].
    assert (Z : then_idle 0 = c) by reflexivity.
    assert (En : endless ex (client ex ro nl (length l0)) then_idle idle_label).
    { intros n. unfold tick, idle_label. destruct (nth_error ls n) as [l|] eqn:L.
      - unfold then_idle. rewrite (firstn_S _ n ls l L). rewrite <- (firstn_skipn (S n) ls), (firstn_S _ n ls l L), go_app, go_app in G.
        rewrite go_app. destruct (go ex ro nl (length l0) c (firstn n ls)) as [e|]; [|discriminate]. cbn [go] in *.
        destruct (okb ex ro nl (length l0) e l) eqn:O; [|discriminate]. destruct (step ex e l); try discriminate.
        split; [now apply okb_client|reflexivity].
      - apply nth_error_None in L. unfold then_idle. now rewrite !firstn_all2 by lia. }
    split; [assumption|]. split; [assumption|]. intros n id t o O.
    assert (Xn : execution ex ro nl l0 2 8 (then_idle n)) by (eapply exec_at; [exact En|]; now rewrite Z).
    destruct (open_run _ _ _ _ _ _ _ _ _ _ Xn O) as (x & Lk & _ & _). apply lookup_in in Lk.
    rewrite forallb_forall in F2.
    assert (Q : exists k, k <= length ls /\ then_idle n = then_idle k /\ (k = n \/ k = length ls)).
    { destruct (le_lt_dec n (length ls)); [exists n; auto|]. exists (length ls). split; [lia|]. split; [|auto]. unfold then_idle. now rewrite !firstn_all2 by lia. }
    destruct Q as (k & Hk & Hn & Q). specialize (F2 k ltac:(apply in_seq; lia)). rewrite <- Hn, forallb_forall in F2. specialize (F2 _ Lk). simpl in F2.
    apply existsb_exists in F2. destruct F2 as (l & Hin & Hl). destruct l as [|u| |]; try discriminate. simpl in Hl. apply Nat.eqb_eq in Hl. subst u.
    destruct Q as [->| ->]; [|rewrite skipn_all in Hin; contradiction].
    apply In_nth_error in Hin. destruct Hin as (j & Hj). exists (n + j). split; [lia|]. unfold idle_label.
    rewrite <- Hj. rewrite <- (firstn_skipn n ls) at 1. rewrite nth_error_app2; rewrite firstn_length_le by lia; [f_equal; lia|lia].
  Qed.
End Idle.

(** C42: [get] among other calls; the thread goes on with further calls of [get]. *)
Definition wf := final [5] (begin 2 (OPush 6) 2 ++ begin 1 (OGet 0) 0).
Definition wf_labels : list (label nat) := concat (repeat (repeat (LStep 1) 8 ++ [LInv 1 (OGet 0)]) 9) ++ [LStep 2].
Example C42_wait_free_example : execution ex false false [5] 2 8 wf /\ open (hist wf) 2 1 (OGet 0) /\ (forall i, ~ touches (V:=nat) (OGet 0) i) /\
  exists c', path ex (client ex false false 1) wf wf_labels c' /\ cost (V:=nat) (OGet 0) (a_max (replay (abs0 [5] 8) (hist wf))) <= steps_of 1 wf_labels.
Proof.
  split; [apply ex_final; vm_compute; reflexivity|]. split; [split; vm_compute; reflexivity|]. split; [intros i []|].
  destruct (go ex false false 1 wf wf_labels) as [c'|] eqn:G; [|vm_compute in G; discriminate]. exists c'.
  split; [now apply go_path|]. apply Nat.leb_le. vm_compute. reflexivity.
Qed.
(** [push] at the first position beyond the capacity, while [push] at the next one waits for it. *)
Definition wg := final [5] (calls 0 (OPush 6) ++ begin 1 (OPush 7) 1 ++ begin 2 (OPush 8) 5).
Definition wg_labels : list (label nat) := concat (repeat [LStep 1; LStep 2] 8) ++ [LInv 1 OCap; LStep 1; LStep 1].
Example C42_growth_example : execution ex false false [5] 2 8 wg /\ open (hist wg) 5 1 (OPush 7) /\
  In (AcAdd 2 1) (accs 5 (hist wg)) /\ 2 <= cap (sh wg) /\
  exists c', path ex (client ex false false 1) wg wg_labels c' /\ cost (OPush 7) (a_max (replay (abs0 [5] 8) (hist wg))) <= steps_of 1 wg_labels.
Proof.
  split; [apply ex_final; vm_compute; reflexivity|]. split; [split; vm_compute; reflexivity|]. split; [vm_compute; auto|].
  split; [apply Nat.leb_le; vm_compute; reflexivity|].
  destruct (go ex false false 1 wg wg_labels) as [c'|] eqn:G; [|vm_compute in G; discriminate]. exists c'.
  split; [now apply go_path|]. apply Nat.leb_le. vm_compute. reflexivity.
Qed.
(** [set] that waits for another thread; after that it goes on, and so does its thread. *)
Fixpoint worked (t : nat) (c : cfg nat) (ls : list (label nat)) : nat :=
  match ls with
  | [] => 0
  | l :: ls' => match step ex c l with Next d => (if isstep t l && negb (staysb ex c t) then 1 else 0) + worked t d ls' | _ => 0 end
  end.
Lemma go_work n0 t ls : forall c d, go ex false false n0 c ls = Some d -> work ex (client ex false false n0) t c (worked t c ls) d.
Proof.
  induction ls as [|l ls IH]; intros c d; cbn [go worked]; [intros [= ->]; apply work_start|]. destruct (okb ex false false n0 c l) eqn:O; [|discriminate].
  destruct (step ex c l) as [e| |] eqn:S; try discriminate. intros G. apply okb_client in O. specialize (IH e d G).
  destruct (isstep t l) eqn:I; cbn [andb plus].
  - destruct l as [|u| |]; try discriminate. simpl in I. apply Nat.eqb_eq in I. subst u. destruct (staysb ex c t) eqn:B; cbn [negb plus].
    + apply staysb_waits in B. unfold waits in B. eapply work_other; [exact O|exact S|right; congruence|exact IH].
    + eapply work_own; [exact O|exact S| |exact IH]. intros ->. destruct (stay_inv ex c t S) as (x & a & ag & k & y & s' & l1 & Lk & Hp & Ex & Ag).
      unfold staysb in B. rewrite Lk, Hp, Ex in B. congruence.
  - eapply work_other; [exact O|exact S| |exact IH]. left. intros ->. simpl in I. rewrite Nat.eqb_refl in I. discriminate.
Qed.
Definition ww := final [5] (calls 0 (OGet 0) ++ begin 1 (OElem 0 ECloned) 1 ++ begin 2 (OElem 0 (ESet 9)) 0).
Definition ww_labels : list (label nat) := [LStep 2; LStep 2; LStep 1; LStep 1; LStep 2; LStep 1] ++ repeat (LStep 2) 5 ++
  concat (repeat [LInv 2 OCap; LStep 2; LStep 2] 36).
Example C42_work_example : execution ex false false [5] 2 8 ww /\ open (hist ww) 6 2 (OElem 0 (ESet 9)) /\
  step ex ww (LStep 2) = Next ww /\ exists c' k, work ex (client ex false false 1) 2 ww k c' /\
  cost (OElem 0 (ESet 9)) (a_max (replay (abs0 [5] 8) (hist ww))) <= k.
Proof.
  split; [apply ex_final; vm_compute; reflexivity|]. split; [split; vm_compute; reflexivity|].
  split; [apply staysb_waits; vm_compute; reflexivity|].
  destruct (go ex false false 1 ww ww_labels) as [c'|] eqn:G; [|vm_compute in G; discriminate]. exists c', (worked 2 ww ww_labels).
  split; [now apply go_work|]. apply Nat.leb_le. vm_compute. reflexivity.
Qed.

(** C21: a fair execution without new calls. *)
Definition fr_script : list (item nat) := calls 0 (OGet 0) ++ begin 1 (OGetCloned 0) 4 ++ begin 2 (OElem 0 (ESet 9)) 5.
Definition fr_labels : list (label nat) := [LStep 2; LStep 1; LStep 2; LStep 1; LStep 1; LStep 1; LStep 2; LStep 2; LStep 2; LStep 2; LStep 2].
Example C21_fair_example : exists cs ls, execution ex false true [5] 2 8 (cs 0) /\ endless ex (client ex false true 1) cs ls /\ fair cs ls /\
  (forall n t o, ls n <> Some (LInv t o)) /\ (forall n, ~ overrun (hist (cs n))) /\ waits ex (cs 0) 2.
Proof.
  destruct (ex_play false true [5] fr_script) as [c|] eqn:Pl; [|vm_compute in Pl; discriminate].
  assert (X : execution ex false true [5] 2 8 c) by (apply (ex_execution false true [5] fr_script c); [simpl; lia|exact Pl]).
  assert (Q : match ex_play false true [5] fr_script with Some c => fairb false true [5] c fr_labels && staysb ex c 2 && forallb (fun n => negb (existsb is_pan (hist (then_idle false true [5] c fr_labels n)))) (seq 0 12) | None => false end = true) by (vm_compute; reflexivity).
  rewrite Pl in Q. rewrite !andb_true_iff in Q. destruct Q as [[Q1 Q2] Q3].
  destruct (idle_fair false true [5] c fr_labels X Q1) as (Z & En & F).
  exists (then_idle false true [5] c fr_labels), (idle_label fr_labels). rewrite Z. split; [assumption|]. split; [assumption|]. split; [assumption|].
  split; [|split].
  - intros n t o H. unfold idle_label in H. apply nth_error_In in H. simpl in H. repeat (destruct H as [H|H]; [discriminate|]). contradiction.
  - intros n. apply no_over. rewrite forallb_forall in Q3. destruct (le_lt_dec n 11) as [L|L].
    + apply negb_true_iff, Q3, in_seq. lia.
    + replace (then_idle false true [5] c fr_labels n) with (then_idle false true [5] c fr_labels 11).
      * apply negb_true_iff, Q3, in_seq. lia.
      * unfold then_idle. rewrite !firstn_all2; [reflexivity|simpl; lia|simpl; lia].
  - now apply staysb_waits.
Qed.

(** C43: a fair execution with new calls, in which a growth call waits. *)
Definition fg_labels : list (label nat) :=
  [LStep 2; LInv 3 (OPush 9); LStep 3; LStep 3; LStep 1; LStep 2] ++ repeat (LStep 1) 7 ++ repeat (LStep 2) 5 ++ repeat (LStep 3) 7.
Example C43_growth_example : exists cs ls, execution ex false false [5] 2 8 (cs 0) /\ endless ex (client ex false false 1) cs ls /\ fair cs ls /\
  (forall n, ~ overrun (hist (cs n))) /\ open (hist (cs 0)) 7 2 (OPush 8) /\ waits ex (cs 0) 2.
Proof.
  assert (X : execution ex false false [5] 2 8 wg) by (apply ex_final; vm_compute; reflexivity).
  assert (Q : fairb false false [5] wg fg_labels && staysb ex wg 2 && forallb (fun n => negb (existsb is_pan (hist (then_idle false false [5] wg fg_labels n)))) (seq 0 26) = true) by (vm_compute; reflexivity).
  rewrite !andb_true_iff in Q. destruct Q as [[Q1 Q2] Q3].
  destruct (idle_fair false false [5] wg fg_labels X Q1) as (Z & En & F).
  exists (then_idle false false [5] wg fg_labels), (idle_label fg_labels). rewrite Z. split; [assumption|]. split; [assumption|]. split; [assumption|].
  split; [|split; [split; vm_compute; reflexivity|now apply staysb_waits]].
  intros n. apply no_over. rewrite forallb_forall in Q3. destruct (le_lt_dec n 25) as [L|L].
  - pose proof (Q3 n (proj2 (in_seq 26 0 n) ltac:(lia))) as R. apply negb_true_iff in R. exact R.
  - replace (then_idle false false [5] wg fg_labels n) with (then_idle false false [5] wg fg_labels 25).
    + pose proof (Q3 25 (proj2 (in_seq 26 0 25) ltac:(lia))) as R. apply negb_true_iff in R. exact R.
    + unfold then_idle. assert (Hl : length fg_labels = 25) by reflexivity. now rewrite !firstn_all2 by (rewrite Hl; lia).
Qed.

Print Assumptions C21_fair.
Print Assumptions C42_no_wait.
Print Assumptions C42_work.
Print Assumptions C42_wait_free.
Print Assumptions C42_growth.
Print Assumptions C43_growth.
Print Assumptions C43_starvation_refuted.
