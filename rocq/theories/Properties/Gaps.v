(** * C18, C19: what a panicking growth call leaves behind. *)

From Coq Require Import List Arith Bool Lia.
From Verif.Model Require Import Prog Mem Deps State Elem Vec Excl Machine.
From Verif Require Import Client Spec.
From Verif.Logic Require Import Inv WP Post Specs Ops Sound Shape Clients Hist Locks Facts Complete Trace Stuck Progress Gaps.
From Verif.Properties Require Import Examples Length Safety Progress.
Import ListNotations.

(** Growth call [id], given position [i], panicked at event [r] without storing a value there. *)
Definition left_empty {V} (h : list (event V)) (id r i : nat) : Prop :=
  exists o m b n, panicked h id r o m /\ In (AcAdd b n) (accs id h) /\ b <= i < b + n /\ forall v, ~ In (i, v) (stored id h).

Section Gaps.
  Context {V : Type} (E : env V) (l0 : list V) (c0 m0 : nat) (c : cfg V).
  Hypothesis X : execution E false false l0 c0 m0 c.
  Notation h := (hist c).
  Notation a0 := (abs0 l0 m0).

  (** C18: such a position has no value at any later time, up to the next [clear]; ... *)
  Theorem C18_empty id r i k : left_empty h id r i -> r < k <= length h -> epoch h r = epoch h k ->
    a_pos (before a0 h k) i = Abandoned /\ value (before a0 h k) i = None.
  Proof.
    intros (o & m & b & n & P & A & Hi & Hs) Hk He.
    pose proof (panic_gap E false false l0 c0 m0 c X id r o m b n i P A Hi Hs k Hk He) as H. unfold value. rewrite H. auto.
  Qed.
  (** ... the length never exceeds it; ... *)
  Theorem C18_length id r i id' r' n : left_empty h id r i -> saw_len h id' r' n -> r < r' -> epoch h r = epoch h r' -> n <= i.
  Proof.
    intros L S Hr He. destruct (Nat.le_gt_cases n i) as [|Hi]; [assumption|exfalso].
    assert (Lr : r' < length h) by (destruct S as (o & v & (t & _ & S) & _); eapply nth_lt; eauto).
    destruct (C06_filled E l0 c0 m0 c X id' r' n i r' S Hi ltac:(lia) eq_refl) as (v & Hv).
    destruct (C18_empty id r i r' L ltac:(lia) He) as [_ Hn]. congruence.
  Qed.
  (** ... and [to_vec] and the consumption of [into_iter] do not succeed: they panic, if the reserved
      positions are within the storage (otherwise see C38). *)
  Theorem C18_to_vec id r i : left_empty h id r i -> at_rest h -> epoch h r = epoch h (length h) ->
    (forall vs, to_vec (sh c) <> XOk vs) /\ (resv (sh c) <= cap (sh c) -> to_vec (sh c) = XPanic).
  Proof.
    intros L Rs He. assert (Hr : r < length h).
    { destruct L as (o & m & b & n & (t & _ & P) & _). eapply nth_lt; eauto. }
    destruct (C18_empty id r i (length h) L ltac:(lia) He) as [Ha Hn].
    rewrite (before_all a0 h (length h)) in Ha, Hn by lia.
    destruct (C10_memory E l0 c0 m0 c X i) as (A1 & _ & A3).
    assert (Hi : i < resv (sh c)) by (rewrite A1; now apply (abandoned_len E false false l0 c0 m0 c i X)).
    assert (U : forall (l : list (option V)), In None l -> unwrap_all l = None).
    { clear. induction l as [|[v|] l IH]; simpl; [intros []| |reflexivity]. intros [?|H]; [discriminate|]. now rewrite IH. }
    assert (K : resv (sh c) <= cap (sh c) -> to_vec (sh c) = XPanic).
    { intros Hc. unfold to_vec, into_inner. destruct (Nat.leb_spec (resv (sh c)) (cap (sh c))); [|lia]. rewrite U; [reflexivity|].
      apply in_map_iff. exists i. split; [|apply in_seq; lia].
      destruct (sst (slots (sh c) i)) eqn:St; try reflexivity. destruct (sval (slots (sh c) i)) as [v|] eqn:Sv; [|reflexivity]. exfalso.
      assert (Q : value (replay a0 h) i = Some v). { apply A3. split; [lia|]. split; [discriminate|reflexivity]. } congruence. }
    split; [|exact K]. intros vs Hv. destruct (Nat.le_gt_cases (resv (sh c)) (cap (sh c))) as [Hc|Hc].
    - rewrite (K Hc) in Hv. discriminate.
    - unfold to_vec, into_inner in Hv. destruct (Nat.leb_spec (resv (sh c)) (cap (sh c))); [lia|discriminate].
  Qed.

  (** C19: suppose that the closure of [push_for_idx] panicked when the call had reserved the first
      position beyond the capacity [cap (sh c)].  Then, in every continuation: the capacity stays as it
      is; a growth call returns only if all its positions were within that capacity; ... *)
  Definition closure_gap : Prop := exists id r f,
    panicked h id r (OPushFor f) PClosure /\ In (AcAdd (cap (sh c)) 1) (accs id h) /\ epoch h r = epoch h (length h).

  Lemma closure_abandoned : closure_gap -> a_pos (replay a0 h) (cap (sh c)) = Abandoned.
  Proof.
    intros (id & r & f & P & A & He). destruct (execution_expl _ _ _ _ _ _ c X) as (snap & Ex & _).
    destruct (h_panicked _ _ _ _ _ _ _ Ex _ _ _ _ P) as (_ & Hr & _ & _ & Q).
    assert (Ev : exists t, nth_error h r = Some (EPan id t PClosure)) by (destruct P as (t & _ & P); eauto). destruct Ev as (t & Ev).
    destruct (pan_grows E _ _ _ _ _ Q eq_refl) as (b & vs & Lv & Ef & Cs).
    assert (vs = []).
    { destruct Cs as [(_ & _ & _ & Cs)|(_ & [Cs|Cs] & _)]; [assumption| |assumption]. simpl in Cs. destruct vs; [reflexivity|simpl in Cs; lia]. }
    subst vs. rewrite <- (before_all a0 h (length h)) by lia.
    apply (panic_gap E false false l0 c0 m0 c X id r _ _ (cap (sh c)) 1 (cap (sh c)) P A ltac:(lia)); [|lia|assumption].
    intros v Hv. rewrite stored_eff in Hv. rewrite (accs_all _ _ _ _ _ _ _ Ex id r _ Ev (Nat.eqb_refl id)), Ef in Hv. simpl in Hv. contradiction.
  Qed.

  Theorem C19_capacity c' : closure_gap -> reach E (client E false false (length l0)) c c' -> cap (sh c') = cap (sh c).
  Proof. intros P R. now destruct (gap_forever E false false l0 c0 m0 c c' X (closure_abandoned P) R) as (_ & Hc & _). Qed.

  Theorem C19_returned c' id r b n : closure_gap -> reach E (client E false false (length l0)) c c' ->
    grew (hist c') id r b n -> length h <= r -> n = 0 \/ b + n <= cap (sh c).
  Proof.
    intros P R Gw Hr. destruct (gap_forever E false false l0 c0 m0 c c' X (closure_abandoned P) R) as (X' & Hc & _ & He & h2 & Hh).
    destruct n as [|n]; [auto|right]. destruct (execution_expl _ _ _ _ _ _ c' X') as (snap & Ex & Hs).
    destruct (grew_has _ _ _ _ _ _ _ Ex id r b (S n) (b + n) Gw ltac:(lia)) as (v & Hv).
    destruct (grew_facts _ _ _ _ _ _ _ Ex id r b (S n) Gw) as (_ & _ & _ & _ & _ & _ & _ & _ & Lr & _).
    assert (Ee : epoch (hist c') r = epoch (hist c') (length (hist c'))).
    { assert (epoch (hist c') (length h) = epoch h (length h)).
      { unfold epoch. rewrite Hh, firstn_app, Nat.sub_diag. simpl. now rewrite app_nil_r. }
      pose proof (epoch_mono (hist c') (length h) r Hr). pose proof (epoch_mono (hist c') r (length (hist c')) ltac:(lia)). lia. }
    destruct (h_has _ _ _ _ _ _ _ Ex r (length (hist c')) (b + n) v ltac:(lia) (le_n _) Ee Hv) as (w & Hw).
    rewrite (before_all a0 (hist c') (length (hist c'))) in Hw by lia.
    destruct (C10_memory E l0 c0 m0 c' X' (b + n)) as (_ & _ & A3). destruct (proj1 (A3 w)) as [Q _]; [unfold value; now rewrite Hw|lia].
  Qed.

  (** ... so a growth call (for at least one position) that starts later never returns, and can only end
      with a panic about the maximum capacity or of its own closure; ... *)
  Theorem C19_blocked c' id o : closure_gap -> reach E (client E false false (length l0)) c c' ->
    called (hist c') id o -> length h <= id -> grows o = true -> 0 < request o ->
    (forall r v, ~ returned (hist c') id r o v) /\
    (forall r m, panicked (hist c') id r o m -> m = PMaxCap \/ (m = PClosure /\ exists f, o = OPushFor f)).
  Proof.
    intros P R Cl Hid Gr Rq.
    destruct (gap_forever E false false l0 c0 m0 c c' X (closure_abandoned P) R) as (X' & Hc & Ha & He & h2 & Hh).
    pose proof (abandoned_len E false false l0 c0 m0 c (cap (sh c)) X (closure_abandoned P)) as Hl.
    destruct (execution_expl _ _ _ _ _ _ c' X') as (snap & Ex & Hs).
    assert (Add : forall r e b n, nth_error (hist c') r = Some e -> is_end id e = true -> In (AcAdd b n) (accs id (firstn r (hist c'))) -> cap (sh c) < b).
    { intros r e b n Hr He' Hin. destruct (in_accs _ _ _ _ _ _ _ Ex id r _ _ Hin Hr He') as (j & t & Hj & Ej & _).
      destruct (h_add _ _ _ _ _ _ _ Ex _ _ _ _ _ Ej) as [Hb _].
      assert (Lr : r < length (hist c')) by (eapply nth_lt; eauto).
      assert (Ee : epoch (hist c') (length h) = epoch (hist c') j).
      { assert (epoch (hist c') (length h) = epoch h (length h)).
        { unfold epoch. rewrite Hh, firstn_app, Nat.sub_diag. simpl. now rewrite app_nil_r. }
        pose proof (epoch_mono (hist c') (length h) j ltac:(lia)). pose proof (epoch_mono (hist c') j (length (hist c')) ltac:(lia)). lia. }
      pose proof (h_len _ _ _ _ _ _ _ Ex (length h) j ltac:(lia) ltac:(lia) Ee) as HL. rewrite Hb in HL.
      assert (before a0 (hist c') (length h) = replay a0 h) as Eb.
      { unfold before. rewrite Hh, firstn_app, Nat.sub_diag, firstn_all. simpl. now rewrite app_nil_r. }
      rewrite Eb in HL. lia. }
    split.
    - intros r v Rt. destruct (h_returned _ _ _ _ _ _ _ Ex _ _ _ _ Rt) as (Lt & Lr & _ & _ & Po & _).
      destruct (post_grows E _ _ _ _ _ Po Gr) as (b & vs & -> & Sp & Lv & Ef).
      assert (Gw : grew (hist c') id r b (request o)) by (exists o; auto).
      destruct (C19_returned c' id r b (request o) P R Gw ltac:(lia)) as [?|Q]; [lia|].
      destruct Rt as (t & _ & Rt). pose proof (Add r _ b (request o) Rt (Nat.eqb_refl id)) as Q2.
      assert (cap (sh c) < b); [|lia]. apply Q2. assert (Z : In (AcAdd b (request o)) (eff (accs id (firstn r (hist c'))))) by (rewrite Ef; now left). apply filter_In in Z. apply Z.
    - intros r m Pn. destruct (h_panicked _ _ _ _ _ _ _ Ex _ _ _ _ Pn) as (Lt & Lr & Ep & _ & Po).
      destruct (pan_grows E _ _ _ _ _ Po Gr) as (b & vs & _ & Ef & _).
      assert (Hin : In (AcAdd b (request o)) (accs id (firstn r (hist c')))) by (assert (Z : In (AcAdd b (request o)) (eff (accs id (firstn r (hist c'))))) by (rewrite Ef; now left); apply filter_In in Z; apply Z).
      destruct (pan_room E _ _ _ _ _ _ _ Po Hin) as [Q|[Q|Q]]; [exfalso|lia|exact Q].
      destruct Pn as (t & _ & Pn). pose proof (Add r _ b (request o) Pn (Nat.eqb_refl id) Hin) as Q2.
      assert (Er : epoch (hist c') r = epoch (hist c') (length (hist c'))).
      { assert (epoch (hist c') (length h) = epoch h (length h)).
        { unfold epoch. rewrite Hh, firstn_app, Nat.sub_diag. simpl. now rewrite app_nil_r. }
        pose proof (epoch_mono (hist c') (length h) r ltac:(lia)). pose proof (epoch_mono (hist c') r (length (hist c')) ltac:(lia)). lia. }
      pose proof (h_mono _ _ _ _ _ _ _ Ex r (length (hist c')) ltac:(lia) (le_n _) Er) as M. pose proof (mo_cap _ _ M) as Mc. rewrite Hs in Mc. lia.
  Qed.

  (** ... and one that waits for room, waits forever. *)
  Theorem C19_waits c' id t o : closure_gap -> reach E (client E false false (length l0)) c c' ->
    waits E c t -> open h id t o -> grows o = true -> open (hist c') id t o.
  Proof.
    intros P R S O Gr. pose proof (closure_abandoned P) as Ha.
    destruct (waiting_for E false false l0 c0 m0 c t X S) as (x & snap & g & W & Lk & Q).
    pose proof (w_gi _ _ _ _ _ _ _ _ W) as G. destruct (gi_run _ _ _ _ _ _ _ _ G t x Lk) as [Ox _].
    assert (I : c_id x = id /\ c_op x = o).
    { destruct (gi_open _ _ _ _ _ _ _ _ G id t o O) as (x' & Lx & Hx). rewrite Lk in Lx. injection Lx as <-. split; [assumption|].
      destruct Ox as [Ox _], O as [O _]. rewrite Hx in Ox. congruence. }
    destruct I as [<- <-].
    assert (Wc : waits_cap (cap (sh c)) (c_prog x)).
    { destruct (stay_inv E c t S) as (x' & a & ag & k & y & s' & l & Lk' & Hp & Ey & Ag). rewrite Lk in Lk'. injection Lk' as <-.
      destruct (execution_base E false false l0 c0 m0 c X t x Lk) as [(_ & Hx & _)|(b & Lp & Tl & _)].
      { destruct (grow_loops E (c_op x) Gr) as (k' & Hk & _). congruence. }
      rewrite Hp in Lp. destruct Lp as [La _]. unfold tail in Tl. rewrite Hp in Tl. destruct Tl as [Ta _].
      unfold loop_ok in La. destruct a as [| | | | | | |i e n| | | | | | | | | | |]; try contradiction.
      - simpl in Ey. injection Ey as <- _ _. exists ag, k. auto.
      - exfalso. simpl in Ta. destruct (c_op x); try discriminate; contradiction. }
    pose proof (gap_waits E false false l0 c0 m0 c c' t x X Ha R Lk Wc) as L'.
    destruct (gap_forever E false false l0 c0 m0 c c' X Ha R) as (X' & _). destruct (execution_world _ _ _ _ _ _ c' X') as (snap' & g' & W').
    apply (gi_run _ _ _ _ _ _ _ _ (w_gi _ _ _ _ _ _ _ _ W') t x L').
  Qed.
End Gaps.

(** ** Examples *)

(** C18: [extend_n_items] with a short iterator; the next [push] succeeds and can be read, [len] stays
    at the gap, [to_vec] panics.  So "the vector remains fully usable" is false. *)
Definition gp := final [5] (calls 0 (OExtendN [Some 6] 2) ++ calls 1 (OPush 7) ++ calls 2 (OGetCloned 3) ++ calls 2 OLen ++ calls 0 (OPush 8)).
Theorem C18_refuted : execution ex false false [5] 2 8 gp /\ left_empty (hist gp) 0 4 2 /\
  returned (hist gp) 5 9 (OPush 7) (RNat 3) /\ returned (hist gp) 10 15 (OGetCloned 3) (ROptVal (Some 7)) /\ saw_len (hist gp) 16 21 2 /\
  epoch (hist gp) 4 = epoch (hist gp) 21 /\ at_rest (hist gp) /\ to_vec (sh gp) = XPanic.
Proof.
  assert (X : execution ex false false [5] 2 8 gp) by (apply ex_final; vm_compute; reflexivity).
  split; [exact X|]. split.
  - exists (OExtendN [Some 6] 2), PShortIter, 1, 2. split; [exists 0; split; vm_compute; reflexivity|]. split; [vm_compute; auto|]. split; [lia|].
    intros v. vm_compute. intros [Q|[]]. discriminate.
  - split; [exists 1; split; vm_compute; reflexivity|]. split; [exists 2; split; vm_compute; reflexivity|].
    split; [exists OLen, (RNat 2); split; [exists 2; split; vm_compute; reflexivity|reflexivity]|]. split; [vm_compute; reflexivity|].
    split; [apply rest_by; vm_compute; reflexivity|]. vm_compute. reflexivity.
Qed.

(** C19: such a panic is possible, with room for four more elements below the maximum; afterwards, in
    every continuation, the push that waits stays open and every later growth call has not returned. *)
Theorem C19_refuted : execution ex false false [5] 2 8 lf3 /\ closure_gap lf3 /\ waits ex lf3 2 /\ cap (sh lf3) = 2 /\ maxc (sh lf3) = 8 /\
  forall c', reach ex (client ex false false 1) lf3 c' -> open (hist c') 8 2 (OPush 8) /\
    forall id r b n, grew (hist c') id r b n -> length (hist lf3) <= id -> n = 0.
Proof.
  assert (X : execution ex false false [5] 2 8 lf3) by (apply ex_final; vm_compute; reflexivity).
  assert (G : closure_gap lf3).
  { exists 5, 7, (fun _ => None). split; [exists 1; split; vm_compute; reflexivity|]. split; [vm_compute; auto|]. vm_compute. reflexivity. }
  assert (S : waits ex lf3 2) by (apply staysb_waits; vm_compute; reflexivity).
  split; [exact X|]. split; [exact G|]. split; [exact S|]. split; [vm_compute; reflexivity|]. split; [vm_compute; reflexivity|].
  intros c' R. split.
  - apply (C19_waits ex [5] 2 8 lf3 X c' 8 2 (OPush 8) G R S); [split; vm_compute; reflexivity|reflexivity].
  - intros id r b n (o & Rt & Gr & Rq) Hid. destruct n as [|n]; [reflexivity|exfalso].
    destruct (C19_blocked ex [5] 2 8 lf3 X c' id o G R) as [Q _]; [|exact Hid|exact Gr|lia|exact (Q _ _ Rt)].
    destruct Rt as (t & Rt & _). now exists t.
Qed.

Print Assumptions C18_empty.
Print Assumptions C18_length.
Print Assumptions C18_to_vec.
Print Assumptions C18_refuted.
Print Assumptions C19_capacity.
Print Assumptions C19_returned.
Print Assumptions C19_blocked.
Print Assumptions C19_waits.
Print Assumptions C19_refuted.
