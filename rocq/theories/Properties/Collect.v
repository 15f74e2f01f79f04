(** * C31, C32: conversions between vectors, lists and iterators. *)

From Coq Require Import List Arith Bool Lia.
From Verif.Model Require Import Prog Mem Deps State Elem Vec Excl Machine.
From Verif Require Import Client Spec Seq Lists ListSem.
From Verif.Logic Require Import Inv WP Post Specs Ops Sound Shape Clients Hist Locks Facts Complete Single SingleOps Solo.
From Verif.Properties Require Import C33 Examples Growth Progress Views Slices Alone.
Import ListNotations.
Local Open Scope prog_scope.

(** [s] is the state of a vector at rest that is the list [ws], and that started with the elements [l0]:
    all other theorems apply to the executions in which it is used from now on. *)
Definition vector_of {V} (E : env V) (l0 : list V) (c0 m0 : nat) (s : shared V) (ws : list V) : Prop :=
  exists c, execution E false false l0 c0 m0 c /\ sh c = s /\ at_rest (hist c) /\ is_list (replay (abs0 l0 m0) (hist c)) ws.

Section Convert.
  Context {V : Type} (E : env V) (l0 : list V) (c0 m0 : nat) (c : cfg V).
  Hypothesis X : execution E false false l0 c0 m0 c.
  Notation h := (hist c).
  Notation a0 := (abs0 l0 m0).

  (** C31: a vector at rest that is a list (has no gaps) is turned into this list by [to_vec] and by
      [into_iter]; [into_inner] gives the pinned vector with its elements. *)
  Theorem C31_into ws : at_rest h -> is_list (replay a0 h) ws ->
    into_inner (sh c) = XOk (map Some ws) /\ to_vec (sh c) = XOk ws.
  Proof.
    intros R [L H]. destruct (full_to_vec E l0 c0 m0 c X R) as (vs & H1 & H2 & H3 & H4).
    - intros i Hi. rewrite L in Hi. destruct (nth_error ws i) as [v|] eqn:Q; [|apply nth_error_None in Q; lia]. exists v.
      specialize (H i). rewrite Q in H. unfold value in H. destruct (a_pos (replay a0 h) i); simpl in H; congruence.
    - assert (vs = ws) by (apply nth_ext_error; intros i; now rewrite H4, H). now subst.
  Qed.
  (** Vectors without gaps: if no growth call panicked since the last [clear]. *)
  Theorem C31_no_gaps : at_rest h -> no_growth_panic h -> exists ws, is_list (replay a0 h) ws.
  Proof.
    intros R N. destruct (full_to_vec E l0 c0 m0 c X R) as (vs & _ & _ & H3 & H4); [intros i; apply (rest_full _ _ _ _ _ _ c i X R N)|]. exists vs. split; auto.
  Qed.
  (** The values that [iter_cloned], consumed to the end, and [clone_to_vec] return, when nobody changes values
      meanwhile: those of the positions up to a length between the lengths at the beginning and the end. *)
  Theorem C31_clones id r o v : returned h id r o v -> o = OIterCloned \/ o = OCloneToVec -> (forall i, untouched h i id r) ->
    exists ws, covers a0 h id r o 0 (length ws) /\ has_values a0 h r 0 ws /\ v = RVals ws.
  Proof.
    intros R O U. destruct O as [-> | ->].
    - destruct (reads_list E l0 c0 m0 c X id r _ _ v R eq_refl eq_refl U) as (a & ws & C & H & Q). injection Q as <-. assert (a = 0) by (destruct C; auto). subst. exists ws. auto.
    - destruct (reads_list E l0 c0 m0 c X id r _ _ v R eq_refl eq_refl U) as (a & ws & C & H & Q). injection Q as <-. assert (a = 0) by (destruct C; auto). subst. exists ws. auto.
  Qed.
  Theorem C31_clones_alone id r o v ws : returned h id r o v -> o = OIterCloned \/ o = OCloneToVec -> alone h id r -> is_list (before a0 h id) ws -> v = RVals ws.
  Proof.
    intros R O Al Is. destruct (C27_step E false false l0 c0 m0 c X id r o (Returns v) ws R Al Is) as (ws' & S & _).
    assert (Q : sublist 0 (length ws) ws = ws) by (unfold sublist; apply firstn_all).
    destruct O as [-> | ->]; cbn in S; rewrite Q in S; destruct S as [S _]; congruence.
  Qed.
End Convert.

Section Collect.
  Context {V : Type} (E : env V) (c0 m0 : nat).
  Hypothesis OK : env_ok E.
  Hypothesis CK : capok E c0 m0.
  Hypothesis W : m0 + 1 < wmod E.
  Notation a0 := (abs0 (@nil V) m0).
  Notation exec := (execution E false false [] c0 m0).

  Lemma call_max (c c' : cfg V) id t o x l :
    hist c' = hist c ++ EInv id t o :: map (EAcc id t) l ++ [match x with Returns r => ERet id t r | Panics m => EPan id t m end] ->
    a_max (replay a0 (hist c')) = a_max (replay a0 (hist c)).
  Proof.
    intros ->. unfold replay. rewrite fold_left_app. simpl. rewrite fold_left_app. simpl.
    generalize (fold_left (@apply V) (hist c) a0) as A. intros A. replace (a_max (apply _ _)) with (a_max (fold_left (@apply V) (map (EAcc id t) l) A)) by (destruct x; reflexivity).
    revert A. induction l as [|y l IH]; intros A; [reflexivity|]. simpl. rewrite IH. destruct y; reflexivity.
  Qed.
  Lemma nil_list : is_list (replay a0 []) [].
  Proof. split; [reflexivity|]. intros i. now destruct i. Qed.
  Lemma start_exec : exec (start [] c0 m0).
  Proof. split; [assumption|]. split; [assumption|]. split; [apply Nat.le_0_l|]. split; [simpl; lia|]. constructor. Qed.
  Lemma rest_nil : at_rest (@nil (event V)).
  Proof. intros id t o [H _]. now destruct id. Qed.

  Lemma push_all t it : forall (c : cfg V) ws, exec c -> at_rest (hist c) -> is_list (replay a0 (hist c)) ws -> no_growth_panic (hist c) ->
    requested 0 (hist c) = length ws -> a_max (replay a0 (hist c)) = m0 -> length ws <= m0 ->
    exists x s' vs, solo E t (foldP (fun _ y => let! v := chk PClosure y in let! _ := push v in Ret tt) tt it) (sh c) =
        match x with None => SDone tt s' | Some m => SPan m s' end /\
      length (ws ++ vs) <= m0 /\
      ((it = map Some vs /\ x = None /\ vector_of E [] c0 m0 s' (ws ++ vs)) \/
       (length (ws ++ vs) = m0 /\ (exists v it', it = map Some vs ++ Some v :: it') /\ x = Some PMaxCap) \/
       ((exists it', it = map Some vs ++ None :: it') /\ x = Some PClosure)).
  Proof.
    induction it as [|[v|] it IH]; intros c ws X R Is Np Rq Mx Lw.
    - exists None, (sh c), []. rewrite app_nil_r. split; [reflexivity|]. split; [assumption|]. left. repeat split; auto. exists c. auto.
    - destruct (solo_list E [] c0 m0 c X t (OPush v) ws R Is) as (x & s' & ws' & c' & l & H1 & H2 & H3 & H4 & H5 & H6 & H7 & H8 & _).
      { repeat split; auto; discriminate. } { simpl. rewrite Rq. lia. } { reflexivity. } { reflexivity. } { right. exact (calm_over E false false [] c0 m0 c X Np). }
      rewrite Mx in H6. cbn [op_prog] in H1. unfold fmap in H1. rewrite solo_bind in H1.
      cbn [foldP]. rewrite !solo_bind. cbn [chk solo bind]. rewrite solo_bind.
      cbn [list_sem] in H6. unfold append_list in H6. change (0 <? 1) with true in H6. rewrite andb_true_l in H6. destruct (Nat.ltb_spec m0 (length ws + 1)) as [Lm|Lm].
      + destruct H6 as [-> ->]. exists (Some PMaxCap), s', []. destruct (solo E t (push v) (sh c)); try discriminate; simpl in H1; try discriminate.
        injection H1 as -> ->. split; [reflexivity|]. rewrite app_nil_r. split; [assumption|]. right. left. split; [lia|]. split; [|reflexivity]. exists v, it. reflexivity.
      + destruct H6 as (vs & -> & Hv). assert (Q : vs = [v] /\ x = Returns (RNat (length ws))).
        { destruct Hv as [(F1 & F2 & F3)|[(F1 & F2 & F3)|(F1 & (i' & F2) & F3)]].
          - destruct vs as [|w [|? ?]]; try discriminate F2. simpl in F1. injection F1 as <-. auto.
          - destruct vs; simpl in *; [discriminate|lia].
          - destruct vs; simpl in *; [discriminate|lia]. }
        destruct Q as [-> ->]. clear Hv. destruct (solo E t (push v) (sh c)) as [i s2| | |]; try discriminate H1. simpl in H1. injection H1 as _ ->. cbn [solo].
        assert (Is' : is_list (replay a0 (hist c')) (ws ++ [v])) by (apply H8; right; eauto).
        destruct (IH c' (ws ++ [v]) H2 H4 Is') as (x & s2 & vs & K1 & K2 & K3).
        { apply (solo_panic E [] c0 m0 c X t (OPush v) (Returns (RNat (length ws))) c' l); [assumption|exact H5|]. right. eauto. }
        { pose proof (solo_requested [] c t (OPush v) (Returns (RNat (length ws))) c' l H5) as Q. cbn [length request] in Q. rewrite Q, Rq, app_length. reflexivity. }
        { pose proof (call_max c c' _ t (OPush v) (Returns (RNat (length ws))) l H5) as Q. congruence. }
        { rewrite app_length. simpl. lia. }
        rewrite H3 in K1. exists x, s2, (v :: vs). split; [exact K1|]. rewrite <- !app_assoc in *. split; [assumption|].
        destruct K3 as [(-> & K3 & K4)|[(K3 & (w & it' & ->) & K4)|((it' & ->) & K4)]]; [left|right; left|right; right].
        * auto.
        * split; [assumption|]. split; [|assumption]. exists w, it'. reflexivity.
        * split; [|assumption]. exists it'. reflexivity.
    - exists (Some PClosure), (sh c), []. rewrite app_nil_r. split; [reflexivity|]. split; [assumption|]. right. right. split; [|reflexivity]. exists it. reflexivity.
  Qed.

  (** C32: what [collect] does for every iterator and every size hint, on a new vector with any growth
      policy. *)
  Theorem C32_collect t hint it : fst hint < wmod E ->
    exists x s' ws, solo E t (from_iter E hint it) (init [] c0 m0) = match x with None => SDone tt s' | Some m => SPan m s' end /\
      collect_list m0 hint it x ws /\ (x = None -> vector_of E [] c0 m0 s' ws).
  Proof.
    intros Hw. pose proof start_exec as X. set (c := start [] c0 m0) in *. assert (Hc : hist c = []) by reflexivity. assert (Hs : sh c = init [] c0 m0) by reflexivity.
    assert (R : at_rest (hist c)) by (rewrite Hc; apply rest_nil). assert (Is : is_list (replay a0 (hist c)) []) by (rewrite Hc; apply nil_list).
    assert (Np : no_growth_panic (hist c)) by (rewrite Hc; intros r id o m (u & P & _); destruct id; discriminate P).
    assert (Rq : requested 0 (hist c) = 0) by reflexivity. assert (Mx : a_max (replay a0 (hist c)) = m0) by reflexivity.
    assert (Gv : given c = []) by reflexivity.
    rewrite <- Hs. clearbody c. unfold collect_list, from_iter. destruct hint as [a ob]. simpl in Hw. cbn [fst snd].
    assert (Pushes : exists x s' ws, solo E t (foldP (fun _ y => let! v := chk PClosure y in let! _ := push v in Ret tt) tt it) (sh c) = match x with None => SDone tt s' | Some m => SPan m s' end /\
      (length ws <= m0 /\ ((it = map Some ws /\ x = None) \/
          (length ws = m0 /\ (exists v it', it = map Some ws ++ Some v :: it') /\ x = Some PMaxCap) \/
          ((exists it', it = map Some ws ++ None :: it') /\ x = Some PClosure))) /\ (x = None -> vector_of E [] c0 m0 s' ws)).
    { destruct (push_all t it c [] X R Is Np Rq Mx ltac:(simpl; lia)) as (x & s' & vs & K1 & K2 & K3). simpl in K2, K3. exists x, s', vs. split; [exact K1|].
      destruct K3 as [(K3 & K4 & K5)|[(K3 & K4 & K5)|(K3 & K4)]]; subst x; (split; [split; auto|]); try discriminate; auto. }
    destruct ob as [b|]; [|exact Pushes]. destruct (Nat.eqb_spec a b) as [<-|]; [|exact Pushes]. clear Pushes.
    destruct (solo_list E [] c0 m0 c X t (OExtendN it a) [] R Is) as (x & s' & ws' & c' & l & H1 & H2 & H3 & H4 & H5 & H6 & H7 & H8 & _).
    { repeat split; auto; discriminate. } { simpl. rewrite Rq. lia. } { reflexivity. } { reflexivity. } { right. exact (calm_over E false false [] c0 m0 c X Np). }
    rewrite Mx in H6. cbn [op_prog] in H1. unfold fmap in H1. rewrite solo_bind in H1. rewrite solo_bind. cbn [list_sem] in H6. unfold append_list in H6. simpl length in H6. rewrite Nat.add_0_l in H6.
    destruct ((0 <? a) && (m0 <? a)) eqn:Lm.
    - apply andb_prop in Lm. destruct Lm as [_ Lm]. apply Nat.ltb_lt in Lm. destruct H6 as [-> ->]. exists (Some PMaxCap), s', []. destruct (solo E t (extend_n_items E it a) (sh c)); try discriminate H1. injection H1 as -> ->.
      split; [reflexivity|]. split; [left; auto|discriminate].
    - assert (La : a <= m0). { apply andb_false_iff in Lm. destruct Lm as [Lm|Lm]; apply Nat.ltb_ge in Lm; lia. } clear Lm.
      destruct H6 as (vs & -> & Hv). simpl app in *. destruct Hv as [(F1 & F2 & ->)|[(F1 & F2 & ->)|(F1 & F2 & ->)]].
      + destruct (solo E t (extend_n_items E it a) (sh c)) as [i s2| | |]; try discriminate H1. simpl in H1. injection H1 as _ ->. exists None, s', vs. split; [reflexivity|].
        split; [right; split; [assumption|left; auto]|]. intros _. exists c'. repeat (split; [assumption|]). apply H8. right. eauto.
      + destruct (solo E t (extend_n_items E it a) (sh c)) as [i s2| | |]; try discriminate H1. injection H1 as -> ->. exists (Some PShortIter), s', vs. split; [reflexivity|]. split; [right; split; [assumption|right; left; auto]|discriminate].
      + destruct (solo E t (extend_n_items E it a) (sh c)) as [i s2| | |]; try discriminate H1. injection H1 as -> ->. exists (Some PClosure), s', vs. split; [reflexivity|]. split; [right; split; [assumption|right; right; auto]|discriminate].
  Qed.

  Lemma map_Some (vs ws : list V) : map Some vs = map Some ws -> vs = ws.
  Proof. revert ws. induction vs as [|v vs IH]; intros [|w ws] H; try discriminate; [reflexivity|]. injection H as -> H. f_equal. auto. Qed.
  Lemma not_panics (vs ws : list V) it' : map Some vs <> map Some ws ++ None :: it'.
  Proof. revert vs. induction ws as [|w ws IH]; intros [|v vs] H; try discriminate. injection H as -> H. exact (IH _ H). Qed.

  (** With a correct size hint, [collect] yields exactly the items (as long as they fit). *)
  Theorem C32_correct_hint t hint vs : hint_ok hint (length vs) -> length vs <= m0 ->
    exists s', solo E t (from_iter E hint (map Some vs)) (init [] c0 m0) = SDone tt s' /\
      vector_of E [] c0 m0 s' vs /\ to_vec s' = XOk vs.
  Proof.
    intros [H1 H2] Lm. destruct (C32_collect t hint (map Some vs) ltac:(lia)) as (x & s' & ws & S & C & K). unfold collect_list in C.
    assert (Q : x = None /\ ws = vs).
    { destruct (match snd hint with Some b => fst hint =? b | None => false end) eqn:Ex.
      - destruct (snd hint) as [b|]; [|discriminate]. apply Nat.eqb_eq in Ex. specialize (H2 b eq_refl). assert (Hf : fst hint = length vs) by lia. rewrite Hf in *.
        destruct C as [[C _]|(_ & [(C1 & C2 & C3)|[(C1 & C2 & C3)|(C1 & (it' & C2) & C3)]])]; [lia| | |].
        + rewrite firstn_all2 in C1 by (now rewrite map_length). apply map_Some in C1. auto.
        + apply map_Some in C2. subst. lia.
        + now apply not_panics in C2.
      - destruct C as (C0 & [(C1 & C2)|[(C1 & (v & it' & C2) & C3)|((it' & C2) & C3)]]).
        + apply map_Some in C1. auto.
        + apply (f_equal (@length _)) in C2. rewrite app_length, !map_length in C2. simpl in C2. lia.
        + now apply not_panics in C2. }
    destruct Q as [-> ->]. specialize (K eq_refl). exists s'. split; [assumption|]. split; [assumption|].
    destruct K as (cc & K1 & K2 & K3 & K4). rewrite <- K2. exact (proj2 (C31_into E [] c0 m0 cc K1 vs K3 K4)).
  Qed.
  (** With an exact size hint that is too small, the rest is silently dropped; ... *)
  Theorem C32_dropped t a vs : a <= length vs -> a <= m0 ->
    exists s', solo E t (from_iter E (a, Some a) (map Some vs)) (init [] c0 m0) = SDone tt s' /\
      vector_of E [] c0 m0 s' (firstn a vs) /\ to_vec s' = XOk (firstn a vs).
  Proof.
    intros La Lm. destruct (C32_collect t (a, Some a) (map Some vs) ltac:(simpl; lia)) as (x & s' & ws & S & C & K). unfold collect_list in C. cbn [fst snd] in C. rewrite Nat.eqb_refl in C.
    assert (Q : x = None /\ ws = firstn a vs).
    { destruct C as [[C _]|(_ & [(C1 & C2 & C3)|[(C1 & C2 & C3)|(C1 & (it' & C2) & C3)]])]; [lia| | |].
      - rewrite firstn_map in C1. apply map_Some in C1. auto.
      - apply map_Some in C2. subst. lia.
      - now apply not_panics in C2. }
    destruct Q as [-> ->]. specialize (K eq_refl). exists s'. split; [assumption|]. split; [assumption|].
    destruct K as (cc & K1 & K2 & K3 & K4). rewrite <- K2. exact (proj2 (C31_into E [] c0 m0 cc K1 _ K3 K4)).
  Qed.
  (** ... with one that is too large, [collect] panics. *)
  Theorem C32_panics t a vs : length vs < a < wmod E ->
    exists m s', solo E t (from_iter E (a, Some a) (map Some vs)) (init [] c0 m0) = SPan m s' /\
      m = if a <=? m0 then PShortIter else PMaxCap.
  Proof.
    intros [La Lm]. destruct (C32_collect t (a, Some a) (map Some vs) ltac:(simpl; lia)) as (x & s' & ws & S & C & K). unfold collect_list in C. cbn [fst snd] in C. rewrite Nat.eqb_refl in C.
    destruct C as [[C ->]|(La' & [(C1 & C2 & ->)|[(C1 & C2 & ->)|(C1 & (it' & C2) & ->)]])].
    - exists PMaxCap, s'. split; [assumption|]. destruct (Nat.leb_spec a m0); [lia|reflexivity].
    - exfalso. apply (f_equal (@length _)) in C1. rewrite firstn_length, !map_length in C1. lia.
    - exists PShortIter, s'. split; [assumption|]. destruct (Nat.leb_spec a m0); [reflexivity|lia].
    - now apply not_panics in C2.
  Qed.
  (** Without an exact size hint, [collect] panics when the items do not fit. *)
  Theorem C32_overflow t hint vs : fst hint <= length vs -> length vs > m0 -> snd hint <> Some (fst hint) -> fst hint < wmod E ->
    exists s', solo E t (from_iter E hint (map Some vs)) (init [] c0 m0) = SPan PMaxCap s'.
  Proof.
    intros La Lm Ne Hw. destruct (C32_collect t hint (map Some vs) Hw) as (x & s' & ws & S & C & K). unfold collect_list in C.
    replace (match snd hint with Some b => fst hint =? b | None => false end) with false in C.
    - destruct C as (C0 & [(C1 & C2)|[(C1 & (v & it' & C2) & ->)|((it' & C2) & C3)]]).
      + apply map_Some in C1. subst. lia.
      + eauto.
      + now apply not_panics in C2.
    - destruct (snd hint) as [b|]; [|reflexivity]. symmetry. apply Nat.eqb_neq. congruence.
  Qed.

  (** C31: [clone] collects what [iter_cloned] yields, into a new vector, which has exactly these values. *)
  Theorem C31_clone t hint vs : hint_ok hint (length vs) -> length vs <= m0 ->
    exists s', solo E t (from_iter E hint (map Some vs)) (init [] c0 m0) = SDone tt s' /\ vector_of E [] c0 m0 s' vs.
  Proof. intros H L. destruct (C32_correct_hint t hint vs H L) as (s' & H1 & H2 & _). eauto. Qed.
  (** [From<pinned vector>] gives a vector with exactly the values of the pinned vector. *)
  Theorem C31_from vs : length vs <= c0 -> length vs < wmod E -> vector_of E vs c0 m0 (init vs c0 m0) vs /\ to_vec (init vs c0 m0) = XOk vs.
  Proof.
    intros L Lw. assert (Ve : vector_of E vs c0 m0 (init vs c0 m0) vs).
    { exists (start vs c0 m0). split; [|split; [reflexivity|split; [apply rest_nil|]]].
      - repeat (split; [assumption|]). constructor.
      - split; [reflexivity|]. intros i. unfold value. simpl. now destruct (nth_error vs i). }
    split; [assumption|]. destruct Ve as (cc & K1 & K2 & K3 & K4). rewrite <- K2. exact (proj2 (C31_into E vs c0 m0 cc K1 vs K3 K4)).
  Qed.
End Collect.

(** [new()] and [collect()] use the doubling growth; 64-bit [usize]. *)
Lemma usize64 : 4 * (2 ^ 32 - 1) + 1 < 2 ^ 64.
Proof.
  replace (2 ^ 64) with (2 ^ 32 * 2 ^ 32) by (now rewrite <- Nat.pow_add_r).
  assert (H : 2 ^ 3 <= 2 ^ 32) by (apply Nat.pow_le_mono_r; lia). revert H. generalize (2 ^ 32) as x. simpl (2 ^ 3). intros x H. nia.
Qed.
Theorem C32_new {V} W dbg (q : V -> V -> bool) hs t hint vs : 4 * (2 ^ 32 - 1) + 1 < W ->
  hint_ok hint (length vs) -> length vs <= 4 * (2 ^ 32 - 1) ->
  let E := doubling_env W dbg q hs in
  exists s', solo E t (from_iter E hint (map Some vs)) (init [] 4 (4 * (2 ^ 32 - 1))) = SDone tt s' /\
    vector_of E [] 4 (4 * (2 ^ 32 - 1)) s' vs /\ to_vec s' = XOk vs.
Proof.
  intros HW H L E. exact (C32_correct_hint E 4 _ (C33_doubling_ok W dbg q hs) (C33_doubling W dbg q hs) HW t hint vs H L).
Qed.

Example collect_example :
  let it := map Some [1; 2; 3] in
  let collected hint it := match solo ex 0 (from_iter ex hint it) (init [] 2 8) with SDone _ s => Some (inl (to_vec s)) | SPan m _ => Some (inr m) | _ => None end in
  collected (3, Some 3) it = Some (inl (XOk [1; 2; 3])) /\ collected (0, None) it = Some (inl (XOk [1; 2; 3])) /\
  collected (1, Some 5) it = Some (inl (XOk [1; 2; 3])) /\
  collected (2, Some 2) it = Some (inl (XOk [1; 2])) /\ collected (4, Some 4) it = Some (inr PShortIter) /\
  collected (9, Some 9) it = Some (inr PMaxCap) /\ collected (0, None) (map Some (seq 0 9)) = Some (inr PMaxCap) /\
  collected (0, None) [Some 1; None; Some 2] = Some (inr PClosure).
Proof. vm_compute. repeat split; reflexivity. Qed.
Local Close Scope prog_scope.
(** A clone while another thread pushes, and the vector in the end. *)
Definition convert_script : list (Examples.item nat) :=
  calls 0 (OExtend 2 [Some 6; Some 7]) ++ begin 1 OIterCloned 5 ++ calls 0 (OPush 8) ++ [Fin 1].
Notation cv := (final [5] convert_script).
Example convert_execution : execution ex false false [5] 2 8 cv.
Proof. apply ex_final. vm_compute. reflexivity. Qed.
Example convert_example :
  returned (hist cv) 6 19 OIterCloned (RVals [5; 6; 7]) /\ (forall i, untouched (hist cv) i 6 19) /\
  at_rest (hist cv) /\ no_growth_panic (hist cv) /\ is_list (replay (abs0 [5] 8) (hist cv)) [5; 6; 7; 8] /\
  to_vec (sh cv) = XOk [5; 6; 7; 8] /\ into_inner (sh cv) = XOk (map Some [5; 6; 7; 8]).
Proof.
  split; [exists 1; split; vm_compute; reflexivity|]. split; [apply quiet_by; vm_compute; reflexivity|]. split; [apply rest_by; vm_compute; reflexivity|].
  split; [apply no_panics; vm_compute; reflexivity|]. split; [|split; vm_compute; reflexivity].
  apply (is_list_by ex false false [5] 2 8 _ _ convert_execution). vm_compute. reflexivity.
Qed.

Print Assumptions C31_into.
Print Assumptions C31_no_gaps.
Print Assumptions C31_clones.
Print Assumptions C31_clone.
Print Assumptions C31_from.
Print Assumptions C32_collect.
Print Assumptions C32_correct_hint.
Print Assumptions C32_new.
