(** * C34, C35, C39: references obtained from the unsafe methods; values that move between threads. *)

From Coq Require Import List Arith Bool Lia.
From Verif.Model Require Import Prog Mem Deps State Elem Vec Excl Machine.
From Verif Require Import Client Spec Seq Lists ListSem.
From Verif.Logic Require Import Inv WP Post Specs Ops Sound Shape Clients Hist Locks Facts Complete Lawful Trace Single SingleOps Solo.
From Verif.Properties Require Import C33 Examples Growth Progress Views Slices Alone.
Import ListNotations.
Local Arguments Nat.leb : simpl never.
Local Arguments Nat.ltb : simpl never.
Local Arguments Nat.eqb : simpl never.

(** ** The grow-and-read discipline: no method that changes values; references may be read at any time. *)
Section GrowRead.
  Context {V : Type} (E : env V) (nl : bool) (l0 : list V) (c0 m0 : nat) (c : cfg V).
  Hypothesis X : execution E true nl l0 c0 m0 c.
  Notation h := (hist c).
  Notation a0 := (abs0 l0 m0).

  (** C34: no step is a data race, reads uninitialised memory or leaves the storage; ... *)
  Theorem C34_no_fault l f : client E true nl (length l0) c l -> step E c l <> Fault f.
  Proof. now apply (execution_no_fault E true nl l0 c0 m0). Qed.

  (** ... no access changes a value that was read or given out; ... *)
  Theorem C34_untouched i j k : untouched h i j k.
  Proof.
    intros q e _ He O. destruct e as [| | |id t x| |]; simpl in O; try contradiction.
    destruct (execution_source _ _ _ _ _ _ c X q id t x He) as (o & (u & Ho) & S).
    destruct (execution_expl _ _ _ _ _ _ c X) as (snap & Ex & _). destruct (h_ev _ _ _ _ _ _ _ Ex id _ Ho) as (_ & _ & _ & Al).
    destruct Al as (_ & M & U & _). destruct x; try contradiction; simpl in S.
    - destruct o; try contradiction; simpl in *; try discriminate; destruct o; try contradiction; discriminate.
    - destruct o; try contradiction; simpl in *; try discriminate; destruct o; try contradiction; discriminate.
  Qed.

  (** ... a reference given out by [get_ref], [get_raw] or [iter_ref] refers to a value that a growth call
      put there (or that was there in the beginning) and that stays there until the next [clear], and
      reading through it, at any later time, gives this value. *)
  Theorem C34_references id r o v i : returned h id r o v -> In (GRef i) (grants v) ->
    exists w,
      (forall k, r <= k <= length h -> epoch h k = epoch h r -> value (before a0 h k) i = Some w) /\
      (forall id' r' v', returned h id' r' (ODeref i) v' -> r <= id' -> epoch h r' = epoch h r -> v' = RVal w) /\
      ((nth_error l0 i = Some w /\ epoch h r = epoch h 0) \/
       exists j id' t o', j < r /\ nth_error h j = Some (EAcc id' t (AcInit i w)) /\ epoch h j = epoch h r /\
                          nth_error h id' = Some (EInv id' t o') /\ grows o' = true /\ offers o' w).
  Proof.
    intros R G. destruct (execution_expl _ _ _ _ _ _ c X) as (snap & Ex & _).
    destruct (h_returned _ _ _ _ _ _ _ Ex _ _ _ _ R) as (_ & Hr & _ & _ & _ & Gr). rewrite Forall_forall in Gr. specialize (Gr _ G). simpl in Gr.
    apply (h_filled _ _ _ _ _ _ _ Ex) in Gr; [|lia]. destruct Gr as (w & Hw). exists w.
    assert (K : forall k, r <= k <= length h -> epoch h k = epoch h r -> value (before a0 h k) i = Some w).
    { intros k Hk He. unfold value. rewrite (keep _ _ _ _ _ _ _ Ex r k i w); auto; [lia|lia|]. apply C34_untouched. }
    split; [assumption|]. split.
    - intros id' r' v' R' L He. destruct (h_returned _ _ _ _ _ _ _ Ex _ _ _ _ R') as (L1 & L2 & L3 & _ & P & _). destruct R' as (t' & R1 & R2).
      simpl in P. destruct P as (u & -> & Ef). f_equal.
      assert (Hin : In (AcRead i u) (accs id' (firstn r' h))).
      { assert (Q : In (AcRead i u) (eff (accs id' (firstn r' h)))) by (rewrite Ef; now left). apply filter_In in Q. tauto. }
      apply accs_firstn in Hin. destruct Hin as (j & t & Hj & Hx).
      destruct (h_acc _ _ _ _ _ _ _ Ex _ _ _ _ Hx) as (o2 & A1 & _). destruct (h_ev _ _ _ _ _ _ _ Ex j _ Hx) as (_ & Lg & _). simpl in Lg.
      assert (He' : epoch h j = epoch h r). { pose proof (epoch_mono h r j ltac:(lia)). pose proof (epoch_mono h j r' ltac:(lia)). lia. }
      specialize (K j ltac:(lia) He'). unfold value in K. unfold Sound.a0 in Lg. rewrite Lg in K. simpl in K. congruence.
    - destruct (latest l0 m0 h (explained_lawful E true nl l0 m0 snap h Ex) r i w ltac:(lia)) as [(L1 & L2)|(j & e & L1 & L2 & L3 & L4)]; [unfold value; now rewrite Hw| |].
      + left. split; [assumption|]. assert (Q : forall k, k <= r -> epoch h k = epoch h 0).
        { induction k as [|k IH]; intros Hk; [reflexivity|]. destruct (nth_error h k) as [e|] eqn:He; [|apply nth_error_None in He; lia].
          rewrite (epoch_S h k _ He), IH by lia. destruct (L2 k e w ltac:(lia) He) as [_ N]. destruct e; try reflexivity; congruence. }
        now apply Q.
      + right. assert (He' : epoch h j = epoch h r).
        { assert (Q : forall k, j < k <= r -> epoch h k = epoch h j).
          { induction k as [|k IH]; intros Hk; [lia|]. destruct (Nat.eq_dec k j) as [->|N].
            - rewrite (epoch_S h j _ L2). destruct e; try contradiction; simpl; lia.
            - destruct (nth_error h k) as [e'|] eqn:He; [|apply nth_error_None in He; lia]. rewrite (epoch_S h k _ He), IH by lia.
              destruct (L4 k e' w ltac:(lia) He) as [_ N']. destruct e'; simpl; try lia; congruence. }
          symmetry. apply Q. lia. }
        destruct e as [| | |id' t x| |]; try contradiction.
        pose proof (C34_untouched i j (S j) j _ ltac:(lia) L2) as U.
        destruct x; simpl in L3; try contradiction.
        * destruct L3 as [-> ->]. destruct (execution_source _ _ _ _ _ _ c X j id' t _ L2) as (o' & (u & Ho) & S). simpl in S.
          destruct (h_acc _ _ _ _ _ _ _ Ex _ _ _ _ L2) as (o2 & _ & Ho2 & _). rewrite Ho in Ho2. injection Ho2 as -> ->.
          exists j, id', t, o2. repeat split; auto. destruct o2; simpl in S; try contradiction; reflexivity.
        * exfalso. apply U. simpl. tauto.
        * exfalso. apply U. simpl. tauto.
  Qed.
  (** Reading through a reference does not panic. *)
  Theorem C34_no_panic id r i m : ~ panicked h id r (ODeref i) m.
  Proof.
    intros P. destruct (execution_expl _ _ _ _ _ _ c X) as (snap & Ex & _). destruct (h_panicked _ _ _ _ _ _ _ Ex _ _ _ _ P) as (_ & _ & _ & _ & Q). exact Q.
  Qed.
End GrowRead.

(** ** References and updates *)
Section Hazard.
  Context {V : Type} (E : env V) (l0 : list V) (c0 m0 : nat) (c : cfg V).
  Hypothesis X : execution E false false l0 c0 m0 c.
  Notation h := (hist c).
  Notation a0 := (abs0 l0 m0).

  Lemma requested_fits : requested (length l0) h < wmod E.
  Proof. destruct (execution_world _ _ _ _ _ _ c X) as (snap & g & W). exact (b_wm _ _ _ (w_b _ _ _ _ _ _ _ _ W)). Qed.
  Lemma rest_slot i v : at_rest h -> a_pos (replay a0 h) i = Has v -> i < cap (sh c) /\ exists w, slots (sh c) i = Slot SOME (Some w) None [].
  Proof.
    intros R Hv. destruct (execution_world _ _ _ _ _ _ c X) as (snap & g & W). pose proof (w_gi _ _ _ _ _ _ _ _ W) as G.
    pose proof (gi_pos _ _ _ _ _ _ _ _ G i) as P. unfold Sound.a0 in *. rewrite Hv in P. simpl in P. pose proof (i_slot _ _ _ _ (gi_inv _ _ _ _ _ _ _ _ G) i) as S.
    destruct (g i) as [| | | | | |u m] eqn:Hg; try destruct P; simpl in S.
    - destruct S as (S1 & S2 & S3 & S4 & [S5|S5]); [discriminate|]. split; [assumption|]. destruct (slots (sh c) i) as [a b d e]. simpl in *. destruct b as [w|]; [|congruence]. exists w. congruence.
    - exfalso. pose proof (gi_idle _ _ _ _ _ _ _ _ G u) as Id. rewrite (rest_run _ _ _ _ _ _ c X R) in Id. specialize (Id eq_refl).
      pose proof (v_own _ _ _ _ Id i) as O. rewrite Hg in O. unfold own in O. simpl in O. rewrite Nat.eqb_refl in O. discriminate.
  Qed.
End Hazard.

Section Race.
  Context {V : Type} (E : env V) (l0 : list V) (c0 m0 : nat) (c : cfg V).
  Hypothesis X : execution E false false l0 c0 m0 c.
  Notation h := (hist c).
  Notation a0 := (abs0 l0 m0).
  (** C35: for every vector at rest, every element of it and every method that updates the element: after one
      thread got a reference to its value from [get_ref], and another one the element from [get], reading
      through the reference while the other thread updates the element is a data race. *)
  Theorem C35_race ws i t u o : at_rest h -> is_list (replay a0 h) ws -> i < length ws -> t <> u ->
    updates (OElem i o) = true ->
    exists c2 l1 l2 id, execution E false false l0 c0 m0 c2 /\
      hist c2 = (h ++ EInv (length h) t (OGetRef i) :: l1 ++ [ERet (length h) t (ROptRef (Some i))])
                  ++ EInv id u (OGet i) :: l2 ++ [ERet id u (ROptElem (Some i))] /\
      runs E c2 [LInv t (ODeref i); LStep t; LInv u (OElem i o); LStep u; LStep u] = Fault FRace.
  Proof.
    intros R Is Hi Ntu Up. pose proof (requested_fits E l0 c0 m0 c X) as Rq.
    destruct (solo_list E l0 c0 m0 c X t (OGetRef i) ws R Is) as (x & s1 & ws1 & c1 & k1 & _ & X1 & _ & R1 & H1 & S1 & _ & I1 & G1).
    { repeat split; auto; discriminate. } { simpl. lia. } { reflexivity. } { reflexivity. } { auto. }
    simpl in S1. unfold slice_list in S1. rewrite (proj2 (Nat.ltb_lt _ _) Hi) in S1. destruct S1 as [-> ->]. specialize (I1 (or_introl eq_refl)).
    pose proof (requested_fits E l0 c0 m0 c1 X1) as Rq1.
    destruct (solo_list E l0 c0 m0 c1 X1 u (OGet i) ws R1 I1) as (x & s2 & ws2 & c2 & k2 & _ & X2 & _ & R2 & H2 & S2 & _ & I2 & G2).
    { repeat split; auto; discriminate. } { simpl. lia. } { reflexivity. } { reflexivity. } { auto. }
    simpl in S2. unfold slice_list in S2. rewrite (proj2 (Nat.ltb_lt _ _) Hi) in S2. destruct S2 as [-> ->]. specialize (I2 (or_introl eq_refl)).
    exists c2, (map (EAcc (length h) t) k1), (map (EAcc (length (hist c1)) u) k2), (length (hist c1)). split; [assumption|]. split; [now rewrite H2, H1|].
    assert (Hv : exists v, a_pos (replay a0 (hist c2)) i = Has v).
    { destruct I2 as [_ I2]. specialize (I2 i). destruct (nth_error ws i) as [v|] eqn:Q; [|apply nth_error_None in Q; lia]. exists v. unfold value in I2. destruct (a_pos (replay a0 (hist c2)) i); simpl in I2; congruence. }
    destruct Hv as (v & Hv). destruct (rest_slot E l0 c0 m0 c2 X2 i v R2 Hv) as (Hc & w & Hs). pose proof (rest_run _ _ _ _ _ _ c2 X2 R2) as Rn.
    apply Nat.ltb_lt in Hc. clear -Hc Hs Rn G1 G2 Ntu Up. destruct c2 as [s rn hh gv]. cbn [sh run given] in *. simpl in G1, G2. subst rn.
    assert (Ha : existsb (grant_eqb (GRef i)) gv = true) by (rewrite G2, G1; rewrite !existsb_app; simpl; rewrite Nat.eqb_refl; now rewrite !orb_true_r).
    assert (Hb : existsb (grant_eqb (GElem i)) gv = true) by (rewrite G2, !existsb_app; simpl; rewrite Nat.eqb_refl; now rewrite !orb_true_r).
    assert (Tu : (t =? u) = false) by (now apply Nat.eqb_neq). assert (Ut : (u =? t) = false) by (apply Nat.eqb_neq; congruence).
    assert (K : forall d d' (l : label V) ls (r : stepped V), step E d l = Next d' -> runs E d' ls = r -> runs E d (l :: ls) = r) by (intros d d' l ls r Q1 Q2; cbn [runs]; now rewrite Q1).
    eapply K; [cbn [step lookup run given]; unfold has_grant; cbn [needs]; rewrite Ha; reflexivity|].
    eapply K; [cbn [step run]; unfold step_thread; cbn [lookup run]; rewrite Nat.eqb_refl; cbn; unfold with_slot; rewrite Hc, Hs; cbn; reflexivity|].
    unfold after. cbn [remove run hist given c_id c_op]. rewrite Nat.eqb_refl.
    eapply K; [cbn [step lookup run given]; rewrite Ut; unfold has_grant; cbn [needs]; rewrite Hb; reflexivity|].
    assert (Hp : exists k, eop_prog E i o = Spin (CasSt i SOME RESERVED) (fun r => negb (fst r) && st_eqb (snd r) RESERVED) k /\ forall y, exists k', k (true, y) = Act (WrBeg i) k').
    { destruct o; try discriminate; (eexists; split; [reflexivity|]; intros y; eexists; reflexivity). }
    destruct Hp as (k & Hp & Hk). cbn [op_prog]. rewrite Hp. destruct (Hk SOME) as (k' & Hk').
    eapply K; [cbn [step run]; unfold step_thread; cbn [lookup run]; rewrite Nat.eqb_refl; cbn [c_prog exec sh]; unfold with_slot; cbn; rewrite Hc; unfold upd; rewrite Nat.eqb_refl; cbn; reflexivity|].
    unfold after. cbn [c_id c_op]. rewrite Hk'. cbn [runs step]. unfold step_thread. cbn [lookup run]. rewrite Nat.eqb_refl. cbn. unfold with_slot. cbn. rewrite Hc. unfold upd. rewrite Nat.eqb_refl. cbn. reflexivity.
  Qed.
End Race.

(** C39: in every vector that is not at its maximum capacity, thread [t] can push the value [v] and thread [u] then gets
    this very value as the result of [replace]: the value moves from one thread to another. *)
Section Moves.
  Context {V : Type} (E : env V) (l0 : list V) (c0 m0 : nat) (c : cfg V).
  Hypothesis X : execution E false false l0 c0 m0 c.
  Notation h := (hist c).
  Notation a0 := (abs0 l0 m0).
  Theorem C39_moves ws t u v w : at_rest h -> is_list (replay a0 h) ws -> ~ overrun h ->
    length ws < a_max (replay a0 h) -> requested (length l0) h + 1 < wmod E ->
    exists c' l1 l2 l3 id2 id3, execution E false false l0 c0 m0 c' /\
      hist c' = h ++ EInv (length h) t (OPush v) :: map (EAcc (length h) t) l1 ++ ERet (length h) t (RNat (length ws)) ::
                     EInv id2 u (OGet (length ws)) :: map (EAcc id2 u) l2 ++ ERet id2 u (ROptElem (Some (length ws))) ::
                     EInv id3 u (OElem (length ws) (EReplace w)) :: map (EAcc id3 u) l3 ++ [ERet id3 u (RVal v)] /\
      is_list (replay a0 (hist c')) (ws ++ [w]).
  Proof.
    intros R Is Np Lm Rq.
    destruct (solo_list E l0 c0 m0 c X t (OPush v) ws R Is) as (x & s1 & ws1 & c1 & k1 & _ & X1 & _ & R1 & H1 & S1 & _ & I1 & _).
    { repeat split; auto; discriminate. } { simpl. lia. } { reflexivity. } { reflexivity. } { auto. }
    simpl in S1. unfold append_list in S1. change (0 <? 1) with true in S1. rewrite andb_true_l in S1. destruct (Nat.ltb_spec (a_max (replay a0 h)) (length ws + 1)); [lia|].
    destruct S1 as (vs & -> & Hv). assert (Q : vs = [v] /\ x = Returns (RNat (length ws))).
    { destruct Hv as [(F1 & F2 & F3)|[(F1 & F2 & F3)|(F1 & (i' & F2) & F3)]].
      - destruct vs as [|z [|? ?]]; try discriminate F2. simpl in F1. injection F1 as <-. auto.
      - destruct vs; simpl in *; [discriminate|lia].
      - destruct vs; simpl in *; [discriminate|lia]. }
    destruct Q as [-> ->]. clear Hv. specialize (I1 (or_intror (ex_intro _ _ eq_refl))).
    assert (Hl : (length ws <? length (ws ++ [v])) = true) by (apply Nat.ltb_lt; rewrite app_length; simpl; lia).
    pose proof (requested_fits E l0 c0 m0 c1 X1) as Rq1.
    destruct (solo_list E l0 c0 m0 c1 X1 u (OGet (length ws)) (ws ++ [v]) R1 I1) as (x & s2 & ws2 & c2 & k2 & _ & X2 & _ & R2 & H2 & S2 & _ & I2 & G2).
    { repeat split; auto; discriminate. } { simpl. lia. } { reflexivity. } { reflexivity. } { auto. }
    simpl in S2. unfold slice_list in S2. rewrite Hl in S2. destruct S2 as [-> ->]. specialize (I2 (or_introl eq_refl)).
    pose proof (requested_fits E l0 c0 m0 c2 X2) as Rq2.
    destruct (solo_list E l0 c0 m0 c2 X2 u (OElem (length ws) (EReplace w)) (ws ++ [v]) R2 I2) as (x & s3 & ws3 & c3 & k3 & _ & X3 & _ & R3 & H3 & S3 & _ & I3 & _).
    { repeat split; auto; discriminate. } { simpl. lia. } { unfold has_grant. simpl. rewrite G2, existsb_app. simpl. rewrite Nat.eqb_refl. now rewrite !orb_true_r. } { reflexivity. } { auto. }
    specialize (I3 (or_introl eq_refl)). simpl in S3. destruct S3 as (v' & Hv' & -> & ->). rewrite nth_error_app2, Nat.sub_diag in Hv' by lia. injection Hv' as <-.
    exists c3, k1, k2, k3, (length (hist c1)), (length (hist c2)). split; [assumption|]. split.
    - rewrite H3. rewrite H2 at 1. rewrite H1 at 1. repeat (rewrite <- app_assoc; simpl). reflexivity.
    - assert (Q : splice (length ws) [w] (ws ++ [v]) = ws ++ [w]).
      { unfold splice. rewrite firstn_app, firstn_all, Nat.sub_diag. cbn [firstn]. rewrite app_nil_r. f_equal. rewrite skipn_all2; [reflexivity|]. rewrite app_length. simpl. lia. }
      rewrite Q in I3. exact I3.
  Qed.
End Moves.

(** Examples: growth while another thread reads through references; ... *)
Definition ro_script : list (Examples.item nat) :=
  calls 0 (OExtend 2 [Some 6; Some 7]) ++ calls 1 (OGetRef 1) ++ begin 1 (ODeref 1) 1 ++ begin 0 (OPush 8) 3 ++ [Fin 1; Fin 0] ++ calls 1 OIterRef ++ begin 2 (OGetCloned 1) 4 ++ calls 1 (ODeref 1) ++ [Fin 2].
Definition ro_final : cfg nat := match ex_play true false [5] ro_script with Some c => c | None => start [5] 2 8 end.
Example ro_execution : execution ex true false [5] 2 8 ro_final.
Proof.
  unfold ro_final. destruct (ex_play true false [5] ro_script) as [d|] eqn:H; [apply (ex_execution true false [5] ro_script); [simpl; lia|assumption]|].
  exfalso. revert H. vm_compute. discriminate.
Qed.
Example ro_example : returned (hist ro_final) 6 11 (OGetRef 1) (ROptRef (Some 1)) /\
  returned (hist ro_final) 12 17 (ODeref 1) (RVal 6) /\ returned (hist ro_final) 20 27 OIterRef (RRefs [0; 1; 2; 3]) /\
  returned (hist ro_final) 32 34 (ODeref 1) (RVal 6) /\ epoch (hist ro_final) 34 = epoch (hist ro_final) 11.
Proof. do 4 (split; [eexists; split; vm_compute; reflexivity|]). vm_compute. reflexivity. Qed.
(** ... a vector to which C35 and C39 apply. *)
Example hazard_example : at_rest (hist al) /\ is_list (replay (abs0 [5] 8) (hist al)) [4] /\ ~ overrun (hist al) /\
  1 < a_max (replay (abs0 [5] 8) (hist al)) /\ requested 1 (hist al) + 1 < wmod ex.
Proof.
  destruct alone_example as (_ & R & _ & Is & _). split; [assumption|]. split; [assumption|]. split; [apply overb_not; vm_compute; reflexivity|].
  split; [apply Nat.ltb_lt; vm_compute; reflexivity|]. apply Nat.ltb_lt; vm_compute; reflexivity.
Qed.

Print Assumptions C34_no_fault.
Print Assumptions C34_untouched.
Print Assumptions C34_references.
Print Assumptions C34_no_panic.
Print Assumptions C35_race.
Print Assumptions C39_moves.
