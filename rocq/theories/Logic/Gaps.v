(** * Positions that a panicking growth call leaves without a value. *)

From Coq Require Import List Arith Bool Lia.
From Verif.Model Require Import Prog Mem Deps State Elem Vec Excl Machine.
From Verif Require Import Client Spec.
From Verif.Logic Require Import Inv WP Post Specs Ops Sound Shape Clients Hist Locks Facts Complete Trace Stuck Progress.
Import ListNotations.
Local Arguments Nat.leb : simpl never.
Local Arguments Nat.ltb : simpl never.
Local Arguments Nat.eqb : simpl never.
Local Arguments Nat.add : simpl never.
Local Arguments Nat.sub : simpl never.
Local Arguments Nat.max : simpl never.

Section Gaps.
  Context {V : Type} (E : env V) (ro nl : bool) (l0 : list V) (c0 m0 : nat).
  Notation execution := (execution E ro nl l0 c0 m0).
  Notation a0 := (abs0 l0 m0).

  Lemma abandoned_len c i : execution c -> a_pos (replay a0 (hist c)) i = Abandoned -> i < a_len (replay a0 (hist c)).
  Proof.
    intros X Ha. destruct (execution_world _ _ _ _ _ _ c X) as (snap & g & W). pose proof (w_gi _ _ _ _ _ _ _ _ W) as G.
    pose proof (gi_pos _ _ _ _ _ _ _ _ G i) as P. unfold Sound.a0 in P. rewrite Ha in P. simpl in P.
    pose proof (i_free _ _ _ _ (gi_inv _ _ _ _ _ _ _ _ G) i) as F. rewrite P in F.
    pose proof (ag_len _ _ (gi_agree _ _ _ _ _ _ _ _ G)) as AL. unfold Sound.a0 in AL. rewrite <- AL. destruct (Nat.lt_ge_cases i (resv (sh c))) as [|L]; [assumption|].
    apply F in L. discriminate.
  Qed.

  (** what an event does to a position without a value *)
  Lemma abandoned_apply c e i : execution c -> legal (replay a0 (hist c)) e -> e <> EClear ->
    a_pos (replay a0 (hist c)) i = Abandoned -> a_pos (apply (replay a0 (hist c)) e) i = Abandoned.
  Proof.
    intros X L Ne Ha. pose proof (abandoned_len c i X Ha) as Hl. destruct e as [| | |id t x| |]; simpl; try assumption; try congruence.
    - now rewrite Ha.
    - destruct x; simpl in *; try assumption; unfold upd.
      + unfold in_range. destruct (Nat.leb_spec b i); [|exact Ha]. lia.
      + destruct (Nat.eqb_spec i i0); [congruence|assumption].
      + destruct (Nat.eqb_spec i i0); [congruence|assumption].
      + destruct L as (_ & L1 & L2). destruct (Nat.eqb_spec i j); [congruence|]. destruct (Nat.eqb_spec i i0); [congruence|assumption].
  Qed.

  Section H.
  Context (c : cfg V) (X : execution c).
  Notation h := (hist c).

  Lemma abandoned_keep j k i : j <= k -> k <= length h -> epoch h j = epoch h k ->
    a_pos (before a0 h j) i = Abandoned -> a_pos (before a0 h k) i = Abandoned.
  Proof.
    intros Hjk Hk He Ha. induction Hjk as [|k Hjk IH]; [assumption|].
    assert (Ek : epoch h j = epoch h k). { pose proof (epoch_mono h j k Hjk). pose proof (epoch_mono h k (S k) ltac:(lia)). lia. }
    specialize (IH ltac:(lia) Ek). destruct (nth_error h k) as [e|] eqn:He'; [|apply nth_error_None in He'; lia].
    rewrite (before_S _ _ _ _ He'). destruct (execution_expl _ _ _ _ _ _ c X) as (snap & Ex & _).
    destruct (h_ev _ _ _ _ _ _ _ Ex _ _ He') as (_ & L & _).
    destruct (execution_prefix _ _ _ _ _ _ c k X ltac:(lia)) as (d & Xd & Hd). unfold before in *. rewrite <- Hd in *.
    apply abandoned_apply; try assumption. intros ->. rewrite (epoch_S h k _ He') in He. simpl in He. lia.
  Qed.

  (** a position reserved by call [id] and not stored before event [k] *)
  Lemma reserved_keep j id t b n k i : nth_error h j = Some (EAcc id t (AcAdd b n)) -> b <= i < b + n -> j < k -> k <= length h ->
    epoch h j = epoch h k -> (forall q e, j < q < k -> nth_error h q = Some e -> is_end id e = false) ->
    (forall v, ~ In (i, v) (stored id h)) -> a_pos (before a0 h k) i = Reserved id.
  Proof.
    intros Hj Hi Hjk Hk He Hend Hs. destruct (execution_expl _ _ _ _ _ _ c X) as (snap & Ex & _).
    destruct (h_add _ _ _ _ _ _ _ Ex _ _ _ _ _ Hj) as [A1 A2].
    assert (Base : a_pos (before a0 h (S j)) i = Reserved id).
    { rewrite (before_S _ _ _ _ Hj). simpl. unfold in_range. destruct (Nat.leb_spec b i), (Nat.ltb_spec i (b + n)); simpl; try lia. reflexivity. }
    clear A1. induction Hjk as [|k Hjk IH]; [assumption|].
    assert (Ek : epoch h j = epoch h k). { pose proof (epoch_mono h j k ltac:(lia)). pose proof (epoch_mono h k (S k) ltac:(lia)). lia. }
    assert (P : a_pos (before a0 h k) i = Reserved id) by (apply IH; [lia|assumption|intros q e Hq; apply Hend; lia]).
    destruct (nth_error h k) as [e|] eqn:Hk'; [|apply nth_error_None in Hk'; lia].
    rewrite (before_S _ _ _ _ Hk'). destruct (h_ev _ _ _ _ _ _ _ Ex _ _ Hk') as (_ & L & _).
    assert (Es : epoch h (S j) = epoch h k). { pose proof (epoch_mono h j (S j) ltac:(lia)). pose proof (epoch_mono h (S j) k ltac:(lia)). lia. }
    pose proof (h_len _ _ _ _ _ _ _ Ex (S j) k Hjk ltac:(lia) Es) as HL.
    pose proof (Hend k e ltac:(lia) Hk') as Hek.
    destruct e as [| |id' t' m'|id' t' x| |]; simpl; try assumption.
    - simpl in Hek. rewrite P. destruct (Nat.eqb_spec id id'); [|reflexivity]. subst. rewrite Nat.eqb_refl in Hek. discriminate.
    - destruct x; simpl in *; try assumption; unfold upd.
      + unfold in_range. destruct (Nat.leb_spec b0 i); [|exact P]. rewrite A2 in HL. lia.
      + destruct (Nat.eqb_spec i i0) as [->|]; [|assumption]. exfalso. rewrite P in L. injection L as <-.
        apply (Hs v). apply stored_in. eauto.
      + destruct (Nat.eqb_spec i i0); [congruence|assumption].
      + destruct L as (_ & L1 & L2). destruct (Nat.eqb_spec i j0); [congruence|]. destruct (Nat.eqb_spec i i0); [congruence|assumption].
    - rewrite (epoch_S h k _ Hk') in He. simpl in He. lia.
  Qed.

  Lemma panic_gap id r o m b n i : panicked h id r o m -> In (AcAdd b n) (accs id h) -> b <= i < b + n ->
    (forall v, ~ In (i, v) (stored id h)) -> forall k, r < k <= length h -> epoch h r = epoch h k -> a_pos (before a0 h k) i = Abandoned.
  Proof.
    intros Pn Hin Hi Hs k Hk He. destruct (execution_expl _ _ _ _ _ _ c X) as (snap & Ex & _).
    destruct (h_panicked _ _ _ _ _ _ _ Ex id r o m Pn) as (H1 & H2 & H3 & H4 & _). destruct Pn as (t & P1 & P2).
    rewrite (accs_all _ _ _ _ _ _ _ Ex id r _ P2 (Nat.eqb_refl id)) in Hin.
    destruct (in_accs _ _ _ _ _ _ _ Ex id r _ _ Hin P2 (Nat.eqb_refl id)) as (j & u & Hj & Ej & Epj).
    assert (R : a_pos (before a0 h r) i = Reserved id).
    { apply (reserved_keep j id u b n r i Ej Hi); try lia; [|assumption]. intros q e Hq. apply H4. lia. }
    apply (abandoned_keep (S r)); try lia.
    - rewrite (epoch_S h r _ P2). simpl. lia.
    - rewrite (before_S _ _ _ _ P2). simpl. rewrite R, Nat.eqb_refl. reflexivity.
  Qed.
  End H.

  (** ** an abandoned position at the capacity *)
  Lemma gap_step c l c' : execution c -> client E ro nl (length l0) c l -> step E c l = Next c' ->
    a_pos (replay a0 (hist c)) (cap (sh c)) = Abandoned ->
    execution c' /\ cap (sh c') = cap (sh c) /\ a_pos (replay a0 (hist c')) (cap (sh c)) = Abandoned /\ epoch (hist c') (length (hist c')) = epoch (hist c) (length (hist c)).
  Proof.
    intros X C S Ha. pose proof (execution_step _ _ _ _ _ _ c l c' X C S) as X'.
    destruct (execution_world _ _ _ _ _ _ c X) as (snap & g & W). pose proof (w_gi _ _ _ _ _ _ _ _ W) as G.
    pose proof (gi_pos _ _ _ _ _ _ _ _ G (cap (sh c))) as P. unfold Sound.a0 in P. rewrite Ha in P. simpl in P.
    assert (Hc : cap (sh c') = cap (sh c)).
    { destruct (step_cap E ro nl l0 m0 c snap g l c' W S) as [?|(w & -> & Hw)]; [assumption|congruence]. }
    split; [assumption|]. split; [assumption|].
    pose proof (abandoned_len c _ X Ha) as Hl.
    destruct (step_hist E c l c' S) as [Hh|(e & Hh)]; [rewrite Hh; auto|].
    assert (Ne : e <> EClear).
    { intros ->. destruct (execution_expl _ _ _ _ _ _ c' X') as (snap' & Ex & _).
      assert (l = LClear).
      { destruct l as [t o|t| |k]; simpl in S; try reflexivity; exfalso.
        - destruct (lookup t (run c)); [discriminate|]. destruct (has_grant o (given c)); [|discriminate]. injection S as <-. simpl in Hh.
          apply app_inv_head in Hh. discriminate.
        - destruct (lookup t (run c)) as [x|] eqn:Lk; [|unfold step_thread in S; rewrite Lk in S; discriminate].
          change (step E c (LStep t) = Next c') in S. assert (Nq : c' <> c).
          { intros ->. apply (f_equal (@length _)) in Hh. rewrite app_length in Hh. simpl in Hh. lia. }
          destruct (move_inv E c t x c' (gi_nodup _ _ _ _ _ _ _ _ G) Lk S Nq) as [_ [(q & l & _ & _ & H)|[_ [(r & H)|(m & H)]]]]; rewrite H in Hh; apply app_inv_head in Hh; try discriminate.
          destruct l; discriminate.
        - destruct (run c); [|discriminate]. destruct (reserve_maximum_capacity E k (sh c)) as [[]| |]; try discriminate; injection S as <-; simpl in Hh.
          + apply app_inv_head in Hh. discriminate.
          + apply (f_equal (@length _)) in Hh. rewrite app_length in Hh. simpl in Hh. lia. }
      subst l. simpl in S. destruct (run c); [|discriminate]. unfold clear in S.
      destruct (Nat.leb_spec (resv (sh c)) (cap (sh c))) as [Q|Q]; [|discriminate].
      pose proof (ag_len _ _ (gi_agree _ _ _ _ _ _ _ _ G)) as AL. unfold Sound.a0 in AL. lia. }
    destruct (execution_expl _ _ _ _ _ _ c' X') as (snap' & Ex & _).
    assert (Ev : nth_error (hist c') (length (hist c)) = Some e) by (rewrite Hh, nth_error_app2, Nat.sub_diag by lia; reflexivity).
    destruct (h_ev _ _ _ _ _ _ _ Ex _ _ Ev) as (_ & L & _).
    assert (F : firstn (length (hist c)) (hist c') = hist c) by (rewrite Hh, firstn_app, Nat.sub_diag, firstn_all; simpl; apply app_nil_r).
    split.
    - rewrite Hh, replay_snoc. apply abandoned_apply; try assumption. unfold before in L. now rewrite F in L.
    - rewrite Hh, app_length. simpl. replace (length (hist c) + 1) with (Datatypes.S (length (hist c))) by lia. rewrite <- Hh.
      rewrite (epoch_S (hist c') _ _ Ev). unfold epoch at 1. rewrite F. unfold epoch. rewrite firstn_all.
      destruct e; simpl; try lia. congruence.
  Qed.

  Lemma gap_forever c c' : execution c -> a_pos (replay a0 (hist c)) (cap (sh c)) = Abandoned ->
    reach E (client E ro nl (length l0)) c c' ->
    execution c' /\ cap (sh c') = cap (sh c) /\ a_pos (replay a0 (hist c')) (cap (sh c)) = Abandoned /\
    epoch (hist c') (length (hist c')) = epoch (hist c) (length (hist c)) /\ exists h2, hist c' = hist c ++ h2.
  Proof.
    intros X Ha R. induction R as [|d l d' R IH C S].
    - repeat (split; [assumption||reflexivity|]). exists []. now rewrite app_nil_r.
    - destruct IH as (I1 & I2 & I3 & I4 & h2 & I5). destruct (gap_step d l d' I1 C S) as (J1 & J2 & J3 & J4); [now rewrite I2|].
      split; [assumption|]. split; [congruence|]. split; [now rewrite <- I2|]. split; [congruence|].
      destruct (step_hist E d l d' S) as [->|(e & ->)]; [eauto|]. rewrite I5. exists (h2 ++ [e]). now rewrite app_assoc.
  Qed.

  (** a call that waits for room then waits forever *)
  Lemma gap_waits c c' t x : execution c -> a_pos (replay a0 (hist c)) (cap (sh c)) = Abandoned ->
    reach E (client E ro nl (length l0)) c c' -> lookup t (run c) = Some x -> waits_cap (cap (sh c)) (c_prog x) -> lookup t (run c') = Some x.
  Proof.
    intros X Ha R Lk Hw. induction R as [|d l d' R IH C S]; [assumption|].
    destruct (gap_forever c d X Ha R) as (Xd & Hc & _). destruct (execution_world _ _ _ _ _ _ d Xd) as (snap & g & W).
    assert (D : l = LStep t \/ ~ actor t l).
    { destruct l as [w o|w| |]; simpl; auto.
      - right. intros ->. simpl in S. rewrite IH in S. discriminate.
      - destruct (Nat.eq_dec w t) as [->|]; auto. }
    destruct D as [->|At].
    - destruct Hw as (ag & k & Hp & Ag). simpl in S. unfold step_thread in S. rewrite IH, Hp in S. simpl in S. rewrite Hc, Ag in S. now injection S as <-.
    - eapply step_lookup; eauto. apply (gi_nodup _ _ _ _ _ _ _ _ (w_gi _ _ _ _ _ _ _ _ W)).
  Qed.
End Gaps.
