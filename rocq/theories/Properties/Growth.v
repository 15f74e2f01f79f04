(** * C01 - C05: what growth calls do.

    [c] is any configuration reached from a vector with the elements [l0]; [h] is its history.  [grew h
    id r b n]: call [id] is a growth call that asked for [n] positions and returned [b] at event [r].
    Two events are in the same [epoch] if no [clear] is between them. *)

From Coq Require Import List Arith Bool Lia.
From Verif.Model Require Import Prog Mem Deps State Elem Vec Excl Machine.
From Verif Require Import Client Spec.
From Verif.Logic Require Import Inv WP Post Specs Ops Sound Shape Clients Hist Facts.
From Verif.Properties Require Import Examples.
Import ListNotations.

Section Growth.
  Context {V : Type} (E : env V) (l0 : list V) (c0 m0 : nat) (c : cfg V).
  Hypothesis X : execution E false false l0 c0 m0 c.
  Notation h := (hist c).
  Notation a0 := (abs0 l0 m0).

  (** C01: the positions of two completed growth calls are disjoint, ... *)
  Theorem C01_disjoint id1 r1 b1 n1 id2 r2 b2 n2 :
    grew h id1 r1 b1 n1 -> grew h id2 r2 b2 n2 -> id1 <> id2 -> epoch h id1 = epoch h id2 ->
    b1 + n1 <= b2 \/ b2 + n2 <= b1.
  Proof.
    destruct (execution_expl _ _ _ _ _ _ c X) as (snap & Ex & _). intros G1 G2 N He.
    destruct (grew_facts _ _ _ _ _ _ _ Ex _ _ _ _ G1) as (o1 & t1 & j1 & vs1 & _ & _ & _ & A1 & _ & _ & A2 & A3 & _).
    destruct (grew_facts _ _ _ _ _ _ _ Ex _ _ _ _ G2) as (o2 & t2 & j2 & vs2 & _ & _ & _ & B1 & _ & _ & B2 & B3 & _).
    destruct (Nat.lt_trichotomy j1 j2) as [L|[L|L]].
    - left. apply (h_add_order _ _ _ _ _ _ _ Ex j1 j2 _ _ _ _ _ _ _ _ A3 B3); [congruence|assumption].
    - subst j2. rewrite A3 in B3. injection B3. intros. now destruct N.
    - right. apply (h_add_order _ _ _ _ _ _ _ Ex j2 j1 _ _ _ _ _ _ _ _ B3 A3); [congruence|assumption].
  Qed.

  (** ... and disjoint from the positions of the initial elements. *)
  Theorem C01_initial id r b n : grew h id r b n -> epoch h id = 0 -> length l0 <= b.
  Proof.
    destruct (execution_expl _ _ _ _ _ _ c X) as (snap & Ex & _). intros G He.
    destruct (grew_facts _ _ _ _ _ _ _ Ex _ _ _ _ G) as (o & t & j & vs & _ & _ & _ & A1 & A2 & _ & A3 & A4 & _).
    destruct (h_add _ _ _ _ _ _ _ Ex _ _ _ _ _ A4) as [<- _].
    pose proof (h_len _ _ _ _ _ _ _ Ex 0 j ltac:(lia) ltac:(lia)) as L. unfold before at 1 in L. simpl in L. apply L.
    rewrite A3, He. reflexivity.
  Qed.

  (** C02, C05: a growth call returns a number [b]; the values it has to store (for [push_for_idx] and
      [extend_for_idx] they depend on [b]) were stored by it at [b], [b+1], ..., in this order, each
      once, and nothing else; ... *)
  Theorem C02_stored id r o v : returned h id r o v -> grows o = true ->
    exists b vs, v = RNat b /\ supplies o b vs /\ length vs = request o /\ stored id h = combine (seq b (request o)) vs.
  Proof.
    destruct (execution_expl _ _ _ _ _ _ c X) as (snap & Ex & _). intros R Gr.
    destruct (h_returned _ _ _ _ _ _ _ Ex id r o _ R) as (_ & _ & _ & _ & P & _).
    destruct (post_grows E _ _ _ _ _ P Gr) as (b & _ & -> & _).
    destruct (grew_stored _ _ _ _ _ _ _ Ex id r b (request o)) as (o' & vs & (t & R1 & _) & _ & _ & S & L & St).
    { exists o. auto. }
    exists b, vs. assert (o' = o) by (destruct R as (t' & R & _); congruence). subst o'. auto.
  Qed.

  (** ... no position is ever given its first value twice, by whatever calls; ... *)
  Theorem C02_once j1 j2 id1 id2 t1 t2 i v1 v2 :
    nth_error h j1 = Some (EAcc id1 t1 (AcInit i v1)) -> nth_error h j2 = Some (EAcc id2 t2 (AcInit i v2)) ->
    epoch h j1 = epoch h j2 -> j1 = j2.
  Proof.
    destruct (execution_expl _ _ _ _ _ _ c X) as (snap & Ex & _).
    apply (init_once E false false l0 m0 snap h Ex).
  Qed.

  (** ... and the value is in memory, unless overwritten, as long as the vector is not cleared. *)
  Theorem C02_memory id r o b vs k v : returned h id r o (RNat b) -> grows o = true -> supplies o b vs ->
    nth_error vs k = Some v -> epoch h id = epoch h (length h) -> untouched h (b + k) id (length h) ->
    b + k < cap (sh c) /\ sst (slots (sh c) (b + k)) <> NONE /\ sval (slots (sh c) (b + k)) = Some v.
  Proof.
    destruct (execution_world _ _ _ _ _ _ c X) as (snap & g & W). pose proof (w_gi _ _ _ _ _ _ _ _ W) as G.
    pose proof (gi_expl _ _ _ _ _ _ _ _ G) as Ex. intros R Gr Sp Hv He U.
    assert (K : a_pos (before a0 h (length h)) (b + k) = Has v).
    { eapply (grew_value _ _ _ _ _ _ _ Ex id r o b vs k v); eauto. destruct R as (t & _ & R). apply nth_lt in R. lia. }
    rewrite before_all in K by lia.
    pose proof (gi_agree _ _ _ _ _ _ _ _ G) as A. pose proof (ag_val _ _ A (b + k)) as C. unfold value, Sound.a0 in C. rewrite K in C. simpl in C.
    assert (F : full (g (b + k))).
    { apply (cell_full _ _ _ _ _ (gi_inv _ _ _ _ _ _ _ _ G)). congruence. }
    pose proof F as F'. apply (full_filled _ _ _ _ _ (gi_inv _ _ _ _ _ _ _ _ G)) in F'. destruct F' as [F1 F2].
    split; [assumption|]. split; [assumption|]. unfold cell in C.
    destruct (Nat.ltb_spec (b + k) (cap (sh c))); [|lia].
    destruct (sst (slots (sh c) (b + k))); congruence.
  Qed.

  (** C04: if one growth call ended before another one started, its positions are smaller. *)
  Theorem C04_order id1 r1 b1 n1 id2 r2 b2 n2 :
    grew h id1 r1 b1 n1 -> grew h id2 r2 b2 n2 -> r1 < id2 -> epoch h id1 = epoch h id2 -> b1 + n1 <= b2.
  Proof.
    destruct (execution_expl _ _ _ _ _ _ c X) as (snap & Ex & _). intros G1 G2 N He.
    destruct (grew_facts _ _ _ _ _ _ _ Ex _ _ _ _ G1) as (o1 & t1 & j1 & vs1 & _ & _ & _ & A1 & _ & _ & A2 & A3 & _).
    destruct (grew_facts _ _ _ _ _ _ _ Ex _ _ _ _ G2) as (o2 & t2 & j2 & vs2 & _ & _ & _ & B1 & _ & _ & B2 & B3 & _).
    apply (h_add_order _ _ _ _ _ _ _ Ex j1 j2 _ _ _ _ _ _ _ _ A3 B3); [congruence|lia].
  Qed.

  (** C05, spelled out for the two methods. *)
  Theorem C05_push_for_idx id r f v : returned h id r (OPushFor f) v ->
    exists b w, v = RNat b /\ f b = Some w /\ stored id h = [(b, w)].
  Proof.
    intros R. destruct (C02_stored id r _ v R eq_refl) as (b & vs & -> & (w & Hw & ->) & _ & St). exists b, w. auto.
  Qed.
  Theorem C05_extend_for_idx id r f n v : returned h id r (OExtendFor f n) v ->
    exists b it vs, v = RNat b /\ f b = Some (n, it) /\ firstn n it = map Some vs /\ length vs = n /\
                    stored id h = combine (seq b n) vs.
  Proof.
    intros R. destruct (C02_stored id r _ v R eq_refl) as (b & vs & -> & (it & H1 & H2 & H3) & _ & St). exists b, it, vs. auto.
  Qed.

  Lemma full_to_vec : at_rest h -> (forall i, i < a_len (replay a0 h) -> exists v, a_pos (replay a0 h) i = Has v) ->
    exists vs, into_inner (sh c) = XOk (map Some vs) /\ to_vec (sh c) = XOk vs /\ length vs = a_len (replay a0 h) /\
               forall i, nth_error vs i = value (replay a0 h) i.
  Proof.
    intros R F0. destruct (execution_world _ _ _ _ _ _ c X) as (snap & g & W). pose proof (w_gi _ _ _ _ _ _ _ _ W) as G.
    pose proof (gi_agree _ _ _ _ _ _ _ _ G) as A. 
    assert (FF : forall i, i < resv (sh c) -> exists v, a_pos (replay a0 h) i = Has v).
    { intros i Hi. apply F0. rewrite (ag_len _ _ A) in Hi. exact Hi. }
    assert (SL : forall i v, a_pos (replay a0 h) i = Has v -> i < cap (sh c) /\ sst (slots (sh c) i) = SOME /\ sval (slots (sh c) i) = Some v).
    { intros i v Hv. pose proof (gi_pos _ _ _ _ _ _ _ _ G i) as P. pose proof (ag_val _ _ A i) as Cv. unfold value, Sound.a0 in *. rewrite Hv in *.
      simpl in P, Cv. pose proof (i_slot _ _ _ _ (gi_inv _ _ _ _ _ _ _ _ G) i) as S.
      destruct (g i) as [| | | | | |u [| |]] eqn:Hg; try destruct P; simpl in S.
      - destruct S as (S1 & S2 & _). unfold cell in Cv. destruct (Nat.ltb_spec i (cap (sh c))); [|lia]. rewrite S2 in Cv. auto.
      - exfalso. pose proof (gi_idle _ _ _ _ _ _ _ _ G u) as Id. rewrite (rest_run _ _ _ _ _ _ c X R) in Id. specialize (Id eq_refl).
        pose proof (v_own _ _ _ _ Id i) as O. rewrite Hg in O. unfold own in O. simpl in O. rewrite Nat.eqb_refl in O. discriminate.
      - exfalso. pose proof (gi_idle _ _ _ _ _ _ _ _ G u) as Id. rewrite (rest_run _ _ _ _ _ _ c X R) in Id. specialize (Id eq_refl).
        pose proof (v_own _ _ _ _ Id i) as O. rewrite Hg in O. unfold own in O. simpl in O. rewrite Nat.eqb_refl in O. discriminate.
      - exfalso. pose proof (gi_idle _ _ _ _ _ _ _ _ G u) as Id. rewrite (rest_run _ _ _ _ _ _ c X R) in Id. specialize (Id eq_refl).
        pose proof (v_own _ _ _ _ Id i) as O. rewrite Hg in O. unfold own in O. simpl in O. rewrite Nat.eqb_refl in O. discriminate. }
    assert (CP : resv (sh c) <= cap (sh c)).
    { destruct (resv (sh c)) as [|k] eqn:Hk; [lia|]. destruct (FF k ltac:(lia)) as (v & Hv). destruct (SL k v Hv). lia. }
    assert (UW : forall n b, (forall i, b <= i < b + n -> exists v, a_pos (replay a0 h) i = Has v) ->
      exists vs, map (fun i => match sst (slots (sh c) i) with SOME => sval (slots (sh c) i) | _ => None end) (seq b n) = map Some vs /\
                 unwrap_all (map (fun i => match sst (slots (sh c) i) with SOME => sval (slots (sh c) i) | _ => None end) (seq b n)) = Some vs
                 /\ length vs = n /\ forall i, i < n -> nth_error vs i = value (replay a0 h) (b + i)).
    { induction n as [|n IH]; intros b Hb; simpl.
      - exists []. split; [reflexivity|]. split; [reflexivity|]. split; [reflexivity|]. intros; lia.
      - destruct (Hb b ltac:(lia)) as (v & Hv). destruct (SL b v Hv) as (_ & -> & ->).
        destruct (IH (S b) ltac:(intros; apply Hb; lia)) as (vs & Hm & -> & Lv & Hn). exists (v :: vs). split; [simpl; now rewrite Hm|]. split; [reflexivity|]. split; [simpl; lia|].
        intros [|i] Hi; simpl.
        + unfold value. rewrite Nat.add_0_r, Hv. reflexivity.
        + rewrite Hn by lia. f_equal. lia. }
    destruct (UW (resv (sh c)) 0 ltac:(intros; apply FF; lia)) as (vs & H0 & H1 & H2 & H3).
    exists vs. split; [|split; [|split]].
    - unfold into_inner. destruct (Nat.leb_spec (resv (sh c)) (cap (sh c))); [|lia]. now rewrite H0.
    - unfold to_vec, into_inner. destruct (Nat.leb_spec (resv (sh c)) (cap (sh c))); [|lia]. now rewrite H1.
    - rewrite H2, (ag_len _ _ A). reflexivity.
    - intros i. destruct (Nat.lt_ge_cases i (resv (sh c))) as [L|L]; [now apply H3|].
      replace (nth_error vs i) with (@None V) by (symmetry; apply nth_error_None; lia).
      unfold value. destruct (a_pos (replay a0 h) i) as [| | |v] eqn:Hv; try reflexivity. exfalso.
      pose proof (pos_cases _ _ _ _ _ _ c i X) as P. rewrite Hv in P. rewrite (ag_len _ _ A) in L. unfold Sound.a0 in L. lia.
  Qed.
  (** C03: when nobody is inside a call and no growth call panicked since the last [clear], [to_vec]
      yields as many elements as were asked for, and they are the ones described by the history; ... *)
  Theorem C03_to_vec : at_rest h -> no_growth_panic h ->
    exists vs, to_vec (sh c) = XOk vs /\ length vs = requested (length l0) h /\
               forall i, nth_error vs i = value (replay a0 h) i.
  Proof.
    intros R N. destruct (full_to_vec R) as (vs & _ & H1 & H2 & H3); [intros i; apply (rest_full _ _ _ _ _ _ c i X R N)|].
    exists vs. split; [assumption|]. split; [|assumption]. rewrite H2. exact (rest_len _ _ _ _ _ _ c X R).
  Qed.

  (** ... in particular the element at position [b+k] of a growth call is the one it had to store, and
      an initial element is the one it was at the start, if nobody overwrote it. *)
  Theorem C03_values vs id r o b ws k v : at_rest h -> no_growth_panic h -> to_vec (sh c) = XOk vs ->
    returned h id r o (RNat b) -> grows o = true -> supplies o b ws -> nth_error ws k = Some v ->
    epoch h id = epoch h (length h) -> untouched h (b + k) id (length h) -> nth_error vs (b + k) = Some v.
  Proof.
    intros R N T Rt Gr Sp Hv He U. destruct (C03_to_vec R N) as (vs' & T' & L & H). assert (vs' = vs) by congruence. subst vs'.
    destruct (C02_memory id r o b ws k v Rt Gr Sp Hv He U) as (M1 & M2 & M3).
    destruct (execution_world _ _ _ _ _ _ c X) as (snap & g & W). pose proof (w_gi _ _ _ _ _ _ _ _ W) as G.
    pose proof (gi_agree _ _ _ _ _ _ _ _ G) as A. rewrite H. pose proof (ag_val _ _ A (b + k)) as Cv. unfold Sound.a0 in Cv. rewrite <- Cv.
    unfold cell. destruct (Nat.ltb_spec (b + k) (cap (sh c))); [|lia].
    destruct (sst (slots (sh c) (b + k))) eqn:St; [congruence| |].
    - exfalso. destruct (locked_by _ _ _ _ _ _ _ _ (b + k) G M1 St) as (t & m & x & _ & Lk). rewrite (rest_run _ _ _ _ _ _ c X R) in Lk. discriminate.
    - exact M3.
  Qed.
  Theorem C03_initial vs k v : at_rest h -> no_growth_panic h -> to_vec (sh c) = XOk vs ->
    nth_error l0 k = Some v -> epoch h (length h) = 0 -> untouched h k 0 (length h) -> nth_error vs k = Some v.
  Proof.
    intros R N T Hv He U. destruct (C03_to_vec R N) as (vs' & T' & L & H). assert (vs' = vs) by congruence. subst vs'.
    rewrite H. destruct (execution_expl _ _ _ _ _ _ c X) as (snap & Ex & _). unfold value.
    pose proof (keep _ _ _ _ _ _ _ Ex 0 (length h) k v ltac:(lia) ltac:(lia)) as K. rewrite (before_all _ h (length h)) in K by lia.
    rewrite K; [reflexivity| |assumption|].
    - rewrite He. reflexivity.
    - unfold before. simpl. now rewrite Hv.
  Qed.
End Growth.

(** Two threads push while a third extends; the extend reserves its positions between the two pushes
    and finishes first. *)
Definition growth_script : list (item nat) :=
  begin 0 (OPush 7) 1 ++ calls 2 (OExtend 3 [Some 1; Some 2; Some 3]) ++ begin 1 (OPushFor (fun i => Some (i * 10))) 4 ++ [Fin 0; Fin 1].
Notation gs := (final [5] growth_script).
Example growth_example :
  execution ex false false [5] 2 8 gs /\
  grew (hist gs) 0 14 1 1 /\ grew (hist gs) 2 8 2 3 /\ grew (hist gs) 9 16 5 1 /\ stored 9 (hist gs) = [(5, 50)] /\
  to_vec (sh gs) = XOk [5; 7; 1; 2; 3; 50].
Proof.
  split; [apply ex_final; vm_compute; reflexivity|].
  split; [exists (OPush 7); split; [exists 0; split; vm_compute; reflexivity|split; reflexivity]|].
  split; [exists (OExtend 3 [Some 1; Some 2; Some 3]); split; [exists 2; split; vm_compute; reflexivity|split; reflexivity]|].
  split; [exists (OPushFor (fun i => Some (i * 10))); split; [exists 1; split; vm_compute; reflexivity|split; reflexivity]|].
  split; vm_compute; reflexivity.
Qed.
Example growth_example_rest : at_rest (hist gs) /\ no_growth_panic (hist gs) /\ epoch (hist gs) (length (hist gs)) = 0.
Proof.
  assert (X : execution ex false false [5] 2 8 gs) by (apply ex_final; vm_compute; reflexivity).
  split; [|split].
  - apply (run_rest _ _ _ _ _ _ _ X). vm_compute. reflexivity.
  - apply no_panics. vm_compute. reflexivity.
  - vm_compute. reflexivity.
Qed.

Print Assumptions C01_disjoint.
Print Assumptions C01_initial.
Print Assumptions C02_stored.
Print Assumptions C02_once.
Print Assumptions C02_memory.
Print Assumptions C03_to_vec.
Print Assumptions C03_values.
Print Assumptions C03_initial.
Print Assumptions C04_order.
Print Assumptions C05_push_for_idx.
Print Assumptions C05_extend_for_idx.
