(** * C24, C28, C29: methods that go over the elements of the vector or of a slice. *)

From Coq Require Import List Arith Bool Lia.
From Verif.Model Require Import Prog Mem Deps State Elem Vec Excl Machine.
From Verif Require Import Client Spec Lists.
From Verif.Logic Require Import Inv WP Post Specs Ops Sound Shape Clients Hist Locks Facts Visits.
From Verif.Properties Require Import Examples Linear.
Import ListNotations.

(** ** Proofs: from the relations of [Logic/Post.v] to functions on lists *)
Lemma nth_ext_error {A} (l : list A) : forall l', (forall k, nth_error l k = nth_error l' k) -> l = l'.
Proof.
  induction l as [|x l IH]; intros [|y l'] H; [reflexivity|specialize (H 0); discriminate|specialize (H 0); discriminate|].
  pose proof (H 0) as H0. injection H0 as ->. f_equal. apply IH. intros k. exact (H (S k)).
Qed.
Section Funs.
  Context {V : Type} (E : env V).

  Lemma map_opt_some {U} vs : forall (f : nat -> V -> option U) us, mapn f vs = map Some us -> map_opt f vs = Some us.
  Proof.
    induction vs as [|v vs IH]; intros f [|u us]; simpl; try discriminate; [auto|]. intros [= H1 H2]. rewrite H1. change (fun k => f (S k)) with (later f). rewrite (IH _ us H2). reflexivity.
  Qed.
  Lemma opt_map_some {U} vs : forall (f : nat -> V -> option U) us, map_opt f vs = Some us ->
    length us = length vs /\ forall k w u, nth_error vs k = Some w -> nth_error us k = Some u -> f k w = Some u.
  Proof.
    induction vs as [|v vs IH]; intros f us; simpl; [intros [= <-]; split; [reflexivity|]; intros [|k]; discriminate|].
    destruct (f 0 v) as [u|] eqn:F; [|discriminate].
    change (fun k => f (S k)) with (later f). destruct (map_opt (later f) vs) as [us'|] eqn:M; [|discriminate]. intros [= <-]. destruct (IH _ _ M) as [L H]. split; [simpl; congruence|].
    intros [|k] w y; simpl; [congruence|]. apply (H k).
  Qed.
  Lemma fold_opt_ofold {U} vs : forall (f : nat -> U -> V -> option U) u, fold_opt f u vs = ofold f u vs.
  Proof. induction vs as [|v vs IH]; intros f u; simpl; [reflexivity|]. destruct (f 0 u v); [|reflexivity]. apply IH. Qed.
  Lemma pick_selected a bs : pick a bs = selected a bs.
  Proof. unfold selected. revert a. induction bs as [|[|] bs IH]; intros a; simpl; rewrite ?IH; reflexivity. Qed.
  Lemma stops_opt {U} vs : forall (f : nat -> V -> option U) ws, stops f vs -> firstn (length vs) ws = vs -> map_opt f ws = None.
  Proof.
    induction vs as [|v vs IH]; intros f [|w ws]; simpl; try contradiction; try discriminate. intros H [= <- Hw].
    destruct (f 0 w) eqn:F; [|reflexivity]. change (fun k => f (S k)) with (later f). now rewrite (IH (later f) ws).
  Qed.
  Lemma fold_stops_opt {U} vs : forall (f : nat -> U -> V -> option U) ws u, fold_stops f u vs -> firstn (length vs) ws = vs -> fold_opt f u ws = None.
  Proof.
    induction vs as [|v vs IH]; intros f [|w ws] u; simpl; try contradiction; try discriminate. intros H [= <- Hw].
    destruct (f 0 u w) eqn:F; [|reflexivity]. now apply (IH (later f) ws).
  Qed.
  Lemma scan_index w vs ws o : firstn (length vs) ws = vs ->
    match o with
    | Some k => k < length ws /\ length vs = S k /\ forall j x, nth_error vs j = Some x -> eqv E x w = (j =? k)
    | None => length vs = length ws /\ forall x, In x vs -> eqv E x w = false
    end -> first_index (fun x => eqv E x w) ws = o.
  Proof.
    revert ws o. induction vs as [|v vs IH]; intros ws o F H.
    - destruct o as [k|]; [destruct H as (_ & H & _); discriminate|]. destruct H as [H _]. destruct ws; [reflexivity|discriminate].
    - destruct ws as [|x ws]; [discriminate|]. simpl in F. injection F as -> F. simpl. destruct o as [k|].
      + destruct H as (H1 & H2 & H3). simpl in *. rewrite (H3 0 v eq_refl). destruct k as [|k]; [reflexivity|]. simpl.
        rewrite (IH ws (Some k) F); [reflexivity|]. split; [lia|]. split; [lia|]. intros j y Hy. exact (H3 (S j) y Hy).
      + destruct H as [H1 H2]. simpl in *. rewrite (H2 v (or_introl eq_refl)). rewrite (IH ws None F); [reflexivity|]. split; [lia|auto].
  Qed.
  Lemma first_index_some w (ws : list V) : existsb (fun x => eqv E x w) ws = is_some (first_index (fun x => eqv E x w) ws).
  Proof. induction ws as [|x ws IH]; [reflexivity|]. simpl. destruct (eqv E x w); [reflexivity|]. rewrite IH. simpl. now destruct (first_index _ ws). Qed.
  Lemma forall2_same vs l : Forall2 (fun x y => eqv E x y = true) vs l -> same_lists (eqv E) vs l = true.
  Proof. induction 1 as [|x y vs l H H' IH]; [reflexivity|]. simpl. now rewrite H. Qed.
  Lemma prefix_differs vs x ws l y : firstn (S (length vs)) ws = vs ++ [x] -> nth_error l (length vs) = Some y -> eqv E x y = false ->
    Forall2 (fun x y => eqv E x y = true) vs (firstn (length vs) l) -> same_lists (eqv E) ws l = false.
  Proof.
    revert ws l. induction vs as [|v vs IH]; intros [|w ws] l F N D A; try discriminate.
    - destruct l as [|z l]; [discriminate|]. simpl in *. injection N as ->. injection F as ->. now rewrite D.
    - destruct l as [|z l]; [discriminate|]. simpl in *. injection F as -> F. inversion A as [|? ? ? ? A1 A2]; subst. rewrite A1. simpl. eapply IH; eauto.
  Qed.
  Lemma length_differs ws l : length ws <> length l -> same_lists (eqv E) ws l = false.
  Proof.
    revert l. induction ws as [|w ws IH]; intros [|z l] H; simpl in *; try reflexivity; [lia|]. rewrite IH by lia. apply andb_false_r.
  Qed.

  (** what the methods return, from what they read *)
  Definition b_of (q : sop V) (a n : nat) (v : ret V) (tr : list (acc V)) : Prop :=
    match q with
    | SIterCloned | SCloneToVec => b_cloned a n v tr
    | SIndexOf w => b_index_of E w a n v tr
    | SContains w => b_contains E w a n v tr
    | SMap f => b_map f a n v tr
    | SFilter f => b_filter f a n v tr
    | SFold init f => b_fold init f a n v tr
    | SReduce f => b_reduce f a n v tr
    | SEqList l => b_eq E l a n v tr
    | SDebug => b_debug a n v tr
    | _ => False
    end.
  Lemma b_result q a n v tr : b_of q a n v tr -> exists vs, eff tr = reads a vs /\ length vs <= n /\ (stops_early q = false -> length vs = n) /\
    forall ws, length ws = n -> firstn (length vs) ws = vs -> list_result (eqv E) q a ws = Some v.
  Proof.
    assert (A : forall vs ws : list V, length ws = length vs -> firstn (length vs) ws = vs -> ws = vs).
    { intros vs ws L F. rewrite <- L, firstn_all in F. assumption. }
    destruct q; simpl; try contradiction.
    - intros (vs & L & -> & Ef). exists vs. repeat split; auto; [lia|]. intros ws Lw F. f_equal. f_equal. apply A; [lia|assumption].
    - intros (o & -> & vs & Ef & S). exists vs. split; [assumption|]. split; [destruct o; [destruct S as (? & ? & _); lia|destruct S; lia]|].
      split; [discriminate|]. intros ws Lw F. f_equal. f_equal. eapply scan_index; [exact F|]. rewrite Lw. exact S.
    - intros (o & -> & vs & Ef & S). exists vs. split; [assumption|]. split; [destruct o; [destruct S as (? & ? & _); lia|destruct S; lia]|].
      split; [discriminate|]. intros ws Lw F. f_equal. f_equal. rewrite first_index_some. f_equal. eapply scan_index; [exact F|]. rewrite Lw. exact S.
    - intros (vs & L & -> & Ef). exists vs. repeat split; auto; [lia|]. intros ws Lw F. f_equal. f_equal. apply A; [lia|assumption].
    - intros (vs & us & L & -> & Ef & M). exists vs. repeat split; auto; [lia|]. intros ws Lw F. rewrite (A vs ws) by (auto; lia).
      now rewrite (map_opt_some vs f us M).
    - intros (vs & bs & L & -> & Ef & M). exists vs. repeat split; auto; [lia|]. intros ws Lw F. rewrite (A vs ws) by (auto; lia).
      rewrite (map_opt_some vs f bs M), pick_selected. reflexivity.
    - intros (vs & u & L & -> & Ef & M). exists vs. repeat split; auto; [lia|]. intros ws Lw F. rewrite (A vs ws) by (auto; lia).
      now rewrite fold_opt_ofold, M.
    - intros (vs & o & L & -> & Ef & M). exists vs. repeat split; auto; [lia|]. intros ws Lw F. rewrite (A vs ws) by (auto; lia).
      destruct vs as [|w vs]; [now subst o|]. destruct M as (u & M & ->). now rewrite fold_opt_ofold, M.
    - intros (vs & b & -> & Ef & L1 & L2 & M). exists vs. repeat split; auto; [discriminate|]. intros ws Lw F. f_equal. f_equal.
      destruct b.
      + destruct M as (M1 & M2 & M3). rewrite (A vs ws) by (auto; lia). now apply forall2_same.
      + destruct M as [(vs' & x & y & -> & N & D & M)|(M & _)].
        * rewrite app_length in F. simpl in F. rewrite Nat.add_1_r in F. eapply prefix_differs; eauto.
        * apply length_differs. lia.
    - intros (vs & L & -> & Ef). exists vs. repeat split; auto; [lia|]. intros ws Lw F. rewrite (A vs ws) by (auto; lia). reflexivity.
  Qed.

  Lemma post_reads o q v tr sI sR : post E o v tr sI sR -> method o = Some q -> reads_all q = true ->
    exists a n, b_of q a n v tr /\ match o with OSl x _ => a = sl_a x /\ n = sl_len x | _ => a = 0 /\ lenres n tr sI sR end.
  Proof.
    destruct o; simpl; try discriminate; intros P [= <-]; simpl; try discriminate; intros Rq;
      try (destruct P as (n & L & B); exists 0, n; auto).
    destruct o; try discriminate; exists (sl_a x), (sl_len x); auto.
  Qed.
  Lemma pan_reads o q m tr sI sR : pan E o m tr sI sR -> method o = Some q -> reads_all q = true ->
    exists a n vs, m = PClosure /\ length vs <= n /\ eff tr = reads a vs /\
      match o with OSl x _ => a = sl_a x /\ n = sl_len x | _ => a = 0 /\ lenres n tr sI sR end /\
      forall ws, firstn (length vs) ws = vs -> list_result (eqv E) q a ws = None.
  Proof.
    assert (K : forall q a n, match q with
      | SMap f => reads_pan (stops f) a n m tr
      | SFilter f => reads_pan (stops f) a n m tr
      | SFold init f => reads_pan (fold_stops f init) a n m tr
      | SReduce f => reads_pan (red_stops f) a n m tr
      | _ => False end -> exists vs, m = PClosure /\ length vs <= n /\ eff tr = reads a vs /\
        forall ws, firstn (length vs) ws = vs -> list_result (eqv E) q a ws = None).
    { intros q' a n. destruct q'; try contradiction; intros (-> & vs & L & Ef & S); exists vs; repeat split; auto; intros ws F; simpl.
      - now rewrite (stops_opt vs f ws).
      - now rewrite (stops_opt vs f ws).
      - now rewrite (fold_stops_opt vs f ws).
      - destruct vs as [|w vs]; [destruct S|]. destruct ws as [|w' ws]; [discriminate|]. simpl in F. injection F as -> F. now rewrite (fold_stops_opt vs f ws). }
    intros P M Rq. destruct o; simpl in M; try discriminate; injection M as <-; simpl in P, Rq; try discriminate; try contradiction;
      try (destruct P as (n & L & P); match goal with |- context [list_result _ ?q] =>
             destruct (K q 0 n P) as (vs & H1 & H2 & H3 & H4); exists 0, n, vs; auto 8 end).
    destruct (K o (sl_a x) (sl_len x)) as (vs & H1 & H2 & H3 & H4); [|exists (sl_a x), (sl_len x), vs; auto 8].
    destruct o; simpl in *; try discriminate; try contradiction; auto.
  Qed.
End Funs.

Section During.
  Context {V : Type} (E : env V) (l0 : list V) (c0 m0 : nat) (c : cfg V).
  Hypothesis X : execution E false false l0 c0 m0 c.
  Notation h := (hist c).
  Notation a0 := (abs0 l0 m0).

  Lemma lenres_during snap id t o r e n : explained E false false l0 m0 snap h -> nth_error h id = Some (EInv id t o) -> self_swap o = false ->
    nth_error h r = Some e -> is_end id e = true -> id < r -> epoch h id = epoch h r ->
    lenres n (accs id (firstn r h)) (snap id) (snap r) -> length_during a0 h id r n.
  Proof.
    intros Ex Hid Ns Hr He L Ee LR. pose proof (nth_lt _ _ _ Hr) as Lr. destruct (execution_holds _ _ _ _ _ _ c X) as (_ & _ & LE).
    split; [|split; [|split]].
    - intros p q k (o' & v' & R' & S') Hq Eq. destruct (h_returned _ _ _ _ _ _ _ Ex _ _ _ _ R') as (_ & Hr' & _ & _ & P' & _).
      destruct (shows_lenres E _ _ _ _ _ _ P' S') as [[_ L'] _].
      pose proof (mo_wrtn _ _ (h_mono _ _ _ _ _ _ _ Ex q id ltac:(lia) ltac:(lia) Eq)). destruct LR as [[? _] _]. lia.
    - intros p q k (o' & v' & R' & S') Hp Ep. destruct (h_returned _ _ _ _ _ _ _ Ex _ _ _ _ R') as (Hpq & Hr' & _ & _ & P' & _).
      destruct (shows_lenres E _ _ _ _ _ _ P' S') as [[L' _] _].
      pose proof (mo_wrtn _ _ (h_mono _ _ _ _ _ _ _ Ex r p ltac:(lia) ltac:(lia) ltac:(congruence))). destruct LR as [[_ ?] _]. lia.
    - intros i Hi. destruct LR as [[_ ?] _]. destruct (h_wrtn _ _ _ _ _ _ _ Ex r i ltac:(lia) ltac:(lia)) as (v & Hv). exists v. unfold value. now rewrite Hv.
    - intros m F B. apply (len_lower E false false l0 m0 snap h Ex LE id t o r e n m Hid Ns Hr He LR); [|exact B].
      intros i Hi. destruct (F i Hi) as (v & Hv). exists v. unfold value in Hv. destruct (a_pos (before a0 h id) i); simpl in Hv; congruence.
  Qed.

  Lemma method_self o (q : sop V) : method o = Some q -> (forall x i j, o <> OSl x (SSwap i j)) -> self_swap o = false.
  Proof. destruct o; try discriminate; try reflexivity. intros _ N. destruct o; try reflexivity. exfalso. now apply (N x i j). Qed.
  Lemma covers_during snap id t o q r e a n : explained E false false l0 m0 snap h -> nth_error h id = Some (EInv id t o) ->
    method o = Some q -> (forall i j, q <> SSwap i j) ->
    nth_error h r = Some e -> is_end id e = true -> id < r -> epoch h id = epoch h r ->
    match o with OSl x _ => a = sl_a x /\ n = sl_len x | _ => a = 0 /\ lenres n (accs id (firstn r h)) (snap id) (snap r) end ->
    covers a0 h id r o a n.
  Proof.
    intros Ex Hid M Nq Hr He L Ee C.
    assert (Ns : self_swap o = false). { apply (method_self o q M). intros x i j ->. simpl in M. injection M as <-. now apply (Nq i j). }
    assert (K : forall n, lenres n (accs id (firstn r h)) (snap id) (snap r) -> length_during a0 h id r n)
      by (intros k; eapply lenres_during; eauto).
    destruct o; simpl in *; try discriminate; auto; destruct C as [-> C]; auto.
  Qed.
End During.

(** ** Theorems *)
Section Views.
  Context {V : Type} (E : env V) (l0 : list V) (c0 m0 : nat) (c : cfg V).
  Hypothesis X : execution E false false l0 c0 m0 c.
  Notation h := (hist c).
  Notation a0 := (abs0 l0 m0).

  (** C24: [iter] yields the positions below the length it finds, or those of the slice; ... *)
  Theorem C24_iter id r o v : returned h id r o v -> method o = Some SIter -> exists a n, covers a0 h id r o a n /\
    v = RElems (seq a n) /\ visited id h = [].
  Proof.
    intros R M. destruct (execution_expl _ _ _ _ _ _ c X) as (snap & Ex & _).
    destruct (h_returned _ _ _ _ _ _ _ Ex _ _ _ _ R) as (Hi & Hr & He & _ & P & _). destruct R as (t & R1 & R2).
    assert (Q : exists a n, b_iter a n v (accs id (firstn r h)) /\ match o with OSl x _ => a = sl_a x /\ n = sl_len x | _ => a = 0 /\ lenres n (accs id (firstn r h)) (snap id) (snap r) end).
    { destruct o; try discriminate; simpl in P; simpl in M; [destruct P as (n & L & B); exists 0, n; auto|]. injection M as ->. simpl in P. exists (sl_a x), (sl_len x). auto. }
    destruct Q as (a & n & [-> Ef] & C). exists a, n. split; [|split; [reflexivity|]].
    - eapply (covers_during E l0 c0 m0 c X snap id t o); eauto; [discriminate|apply Nat.eqb_refl].
    - rewrite visited_eff, (accs_all _ _ _ _ _ _ _ Ex id r _ R2 (Nat.eqb_refl id)), Ef. reflexivity.
  Qed.

  (** ... the methods that read the elements read those positions, each once and in increasing order, some of
      them not to the end; their results are what the functions on lists give for the values read. *)
  Theorem C24_reads id r o q v : returned h id r o v -> method o = Some q -> reads_all q = true -> exists a n, covers a0 h id r o a n /\
    visited id h = seq a (length (read_vals id h)) /\ written_vals id h = [] /\
    length (read_vals id h) <= n /\ (stops_early q = false -> length (read_vals id h) = n) /\
    forall ws, length ws = n -> firstn (length (read_vals id h)) ws = read_vals id h -> list_result (eqv E) q a ws = Some v.
  Proof.
    intros R M Rq. destruct (execution_expl _ _ _ _ _ _ c X) as (snap & Ex & _).
    destruct (h_returned _ _ _ _ _ _ _ Ex _ _ _ _ R) as (Hi & Hr & He & _ & P & _). destruct R as (t & R1 & R2).
    destruct (post_reads E o q v _ _ _ P M Rq) as (a & n & B & C).
    destruct (b_result E q a n v _ B) as (vs & Ef & L1 & L2 & Rs).
    destruct (of_reads id h a vs) as (V1 & V2 & V3). { rewrite (accs_all _ _ _ _ _ _ _ Ex id r _ R2 (Nat.eqb_refl id)). exact Ef. }
    exists a, n. rewrite V1, V2, V3. split; [|auto 6].
    eapply (covers_during E l0 c0 m0 c X snap id t o); eauto; [|apply Nat.eqb_refl]. intros i j ->. discriminate.
  Qed.
  Lemma read_moment snap id r e a vs k w : explained E false false l0 m0 snap h -> nth_error h r = Some e -> is_end id e = true ->
    eff (accs id (firstn r h)) = reads a vs -> nth_error vs k = Some w -> exists j, id < j < r /\ value (before a0 h j) (a + k) = Some w.
  Proof.
    intros Ex R2 Re Ef Hw. assert (In (AcRead (a + k) w) (eff (accs id (firstn r h)))) as Q.
    { rewrite Ef. clear - Hw. revert a k Hw. induction vs as [|x vs IH]; intros a [|k] Hw; simpl in *; try discriminate.
      - injection Hw as ->. left. f_equal. lia.
      - right. replace (a + S k) with (S a + k) by lia. now apply IH. }
    apply filter_In in Q. destruct Q as [Q _]. destruct (in_accs _ _ _ _ _ _ _ Ex id r _ _ Q R2 Re) as (j & u & Hj & Hx & _).
    exists j. split; [assumption|]. destruct (h_ev _ _ _ _ _ _ _ Ex j _ Hx) as (_ & Lg & _). simpl in Lg. unfold value. now rewrite Lg.
  Qed.
  (** Every value read was the value of that position at some moment during the call. *)
  Theorem C24_values id r o q v k i w : returned h id r o v -> method o = Some q -> reads_all q = true ->
    nth_error (visited id h) k = Some i -> nth_error (read_vals id h) k = Some w ->
    exists j, id < j < r /\ value (before a0 h j) i = Some w.
  Proof.
    intros R M Rq Hi Hw. destruct (execution_expl _ _ _ _ _ _ c X) as (snap & Ex & _).
    destruct (h_returned _ _ _ _ _ _ _ Ex _ _ _ _ R) as (_ & Hr & He & _ & P & _). destruct R as (t & R1 & R2).
    destruct (post_reads E o q v _ _ _ P M Rq) as (a & n & B & _). destruct (b_result E q a n v _ B) as (vs & Ef & _).
    destruct (of_reads id h a vs) as (V1 & V2 & V3). { rewrite (accs_all _ _ _ _ _ _ _ Ex id r _ R2 (Nat.eqb_refl id)). exact Ef. }
    rewrite V1 in Hi. rewrite V2 in Hw. assert (Lk : k < length vs) by (apply nth_error_Some; congruence).
    assert (i = a + k). { apply (nth_error_nth _ _ 0) in Hi. rewrite seq_nth in Hi by assumption. lia. } subst i.
    exact (read_moment snap id r _ a vs k w Ex R2 (Nat.eqb_refl id) Ef Hw).
  Qed.

  (** ... [fill] and [fill_with] overwrite exactly these positions, in order. *)
  Theorem C24_fill id r o v w : returned h id r o v -> method o = Some (SFill w) -> exists a n, covers a0 h id r o a n /\
    v = RUnit /\ visited id h = seq a n /\ read_vals id h = [] /\ map snd (written_vals id h) = repeat w n.
  Proof.
    intros R M. destruct (execution_expl _ _ _ _ _ _ c X) as (snap & Ex & _).
    destruct (h_returned _ _ _ _ _ _ _ Ex _ _ _ _ R) as (Hi & Hr & He & _ & P & _). destruct R as (t & R1 & R2).
    assert (Q : exists a n, b_fill w a n v (accs id (firstn r h)) /\ match o with OSl x _ => a = sl_a x /\ n = sl_len x | _ => a = 0 /\ lenres n (accs id (firstn r h)) (snap id) (snap r) end).
    { destruct o; try discriminate; simpl in P; simpl in M; injection M as ->; [destruct P as (n & L & B); exists 0, n; auto|]. simpl in P. exists (sl_a x), (sl_len x). auto. }
    destruct Q as (a & n & (olds & L & -> & Ef) & C).
    destruct (of_writes id h a (map (fun o => (o, w)) olds)) as (V1 & V2 & V3). { rewrite (accs_all _ _ _ _ _ _ _ Ex id r _ R2 (Nat.eqb_refl id)). exact Ef. }
    exists a, n. rewrite V1, V2, V3, map_length, L. split; [|].
    - eapply (covers_during E l0 c0 m0 c X snap id t o); eauto; [discriminate|apply Nat.eqb_refl].
    - repeat split; auto. rewrite map_map. simpl. subst n. clear. induction olds; simpl; [reflexivity|]. now f_equal.
  Qed.
  Theorem C24_fill_with id r o v f : returned h id r o v -> method o = Some (SFillWith f) -> exists a n, covers a0 h id r o a n /\
    v = RUnit /\ visited id h = seq a n /\ read_vals id h = [] /\ map Some (map snd (written_vals id h)) = map f (seq 0 n).
  Proof.
    intros R M. destruct (execution_expl _ _ _ _ _ _ c X) as (snap & Ex & _).
    destruct (h_returned _ _ _ _ _ _ _ Ex _ _ _ _ R) as (Hi & Hr & He & _ & P & _). destruct R as (t & R1 & R2).
    assert (Q : exists a n, b_fill_with f a n v (accs id (firstn r h)) /\ match o with OSl x _ => a = sl_a x /\ n = sl_len x | _ => a = 0 /\ lenres n (accs id (firstn r h)) (snap id) (snap r) end).
    { destruct o; try discriminate; simpl in P; simpl in M; injection M as ->; [destruct P as (n & L & B); exists 0, n; auto|]. simpl in P. exists (sl_a x), (sl_len x). auto. }
    destruct Q as (a & n & (ps & L & -> & Ef & F) & C).
    destruct (of_writes id h a ps) as (V1 & V2 & V3). { rewrite (accs_all _ _ _ _ _ _ _ Ex id r _ R2 (Nat.eqb_refl id)). exact Ef. }
    exists a, n. rewrite V1, V2, V3, L. split; [|].
    - eapply (covers_during E l0 c0 m0 c X snap id t o); eauto; [discriminate|apply Nat.eqb_refl].
    - repeat split; auto. subst n. now apply closure_values.
  Qed.

  (** C28, C29: if nobody overwrites an element during the call (others may push and read), the result
      is the one of the function on lists for the list of the values of these positions. *)
  Lemma read_inside snap id r e t o q a n : explained E false false l0 m0 snap h ->
    nth_error h id = Some (EInv id t o) -> nth_error h r = Some e -> is_end id e = true -> id < r -> epoch h id = epoch h r ->
    method o = Some q -> covers a0 h id r o a n -> forall k, k < n -> exists w, value (before a0 h r) (a + k) = Some w.
  Proof.
    intros Ex R1 R2 Re Hi He M C k Hk. pose proof (nth_lt _ _ _ R2) as Hr.
    unfold covers in C. destruct o; simpl in M; try discriminate; try (destruct C as [-> (_ & _ & C & _)]; now apply C).
    destruct C as [-> ->]. destruct (h_ev _ _ _ _ _ _ _ Ex id _ R1) as (_ & _ & G & _). destruct (G _ eq_refl) as (_ & _ & Gw).
    specialize (Gw (sl_a x + k) ltac:(lia)). apply (h_filled _ _ _ _ _ _ _ Ex id _ ltac:(lia)) in Gw. destruct Gw as (w & Hw).
    destruct (h_has _ _ _ _ _ _ _ Ex id r _ w ltac:(lia) ltac:(lia) He Hw) as (w' & Hw'). exists w'. unfold value. now rewrite Hw'.
  Qed.
  Lemma list_of (f : nat -> option V) a n : (forall k, k < n -> exists w, f (a + k) = Some w) ->
    exists ws, length ws = n /\ forall k, k < n -> f (a + k) = nth_error ws k.
  Proof.
    induction n as [|n IH]; intros F; [exists []; split; [reflexivity|lia]|]. destruct IH as (ws & L & H); [intros; apply F; lia|].
    destruct (F n ltac:(lia)) as (w & Hw). exists (ws ++ [w]). rewrite app_length. simpl. split; [lia|]. intros k Hk.
    destruct (Nat.eq_dec k n) as [->|]; [rewrite nth_error_app2, L, Nat.sub_diag by lia; assumption|rewrite nth_error_app1 by lia; apply H; lia].
  Qed.
  Lemma read_prefix snap id r e a vs ws : explained E false false l0 m0 snap h -> nth_error h r = Some e -> is_end id e = true ->
    id < r -> epoch h id = epoch h r -> (forall i, untouched h i id r) -> eff (accs id (firstn r h)) = reads a vs ->
    length vs <= length ws -> has_values a0 h r a ws -> firstn (length vs) ws = vs.
  Proof.
    intros Ex R2 Re Hi He U Ef L Hw. pose proof (nth_lt _ _ _ R2) as Hr. apply nth_ext_error. intros k.
    destruct (Nat.le_gt_cases (length vs) k) as [Hk|Hk].
    - rewrite (proj2 (nth_error_None _ _) Hk). apply nth_error_None. rewrite firstn_length. lia.
    - destruct (nth_error vs k) as [w|] eqn:Hv; [|apply nth_error_None in Hv; lia].
      destruct (read_moment snap id r e a vs k w Ex R2 Re Ef Hv) as (j & Hj & Vj).
      assert (Pj : a_pos (before a0 h j) (a + k) = Has w) by (unfold value in Vj; destruct (a_pos (before a0 h j) (a + k)); simpl in Vj; congruence).
      assert (Ej : epoch h j = epoch h r) by (rewrite (epoch_between h id j r) by (auto; lia); auto).
      assert (Uj : untouched h (a + k) j r) by (intros q' e' Hq; apply U; lia).
      pose proof (keep _ _ _ _ _ _ _ Ex j r (a + k) w ltac:(lia) ltac:(lia) Ej Uj Pj) as Kp.
      specialize (Hw k ltac:(lia)). unfold value in Hw. rewrite Kp in Hw. simpl in Hw. clear - Hw Hk.
      revert k Hk Hw. generalize (length vs) as m. induction ws as [|x ws IH]; intros m k Hk Hw; [destruct k; discriminate|].
      destruct m as [|m]; [lia|]. destruct k as [|k]; simpl in *; [auto|]. apply IH; [lia|assumption].
  Qed.
  Theorem reads_list id r o q v : returned h id r o v -> method o = Some q -> reads_all q = true -> (forall i, untouched h i id r) ->
    exists a ws, covers a0 h id r o a (length ws) /\ has_values a0 h r a ws /\ list_result (eqv E) q a ws = Some v.
  Proof.
    intros R M Rq U. destruct (execution_expl _ _ _ _ _ _ c X) as (snap & Ex & _).
    destruct (h_returned _ _ _ _ _ _ _ Ex _ _ _ _ R) as (Hi & Hr & He & _ & P & _). destruct R as (t & R1 & R2).
    destruct (post_reads E o q v _ _ _ P M Rq) as (a & n & B & C). destruct (b_result E q a n v _ B) as (vs & Ef & L1 & _ & Rs).
    assert (C' : covers a0 h id r o a n).
    { eapply (covers_during E l0 c0 m0 c X snap id t o); eauto; [|apply Nat.eqb_refl]. intros i j ->. discriminate. }
    destruct (list_of (value (before a0 h r)) a n) as (ws & Lw & Hw). { eapply (read_inside snap id r _ t o q a n Ex R1 R2); eauto. apply Nat.eqb_refl. }
    exists a, ws. rewrite Lw. split; [assumption|]. rewrite <- Lw in Hw. split; [exact Hw|]. apply Rs; [assumption|].
    eapply (read_prefix snap id r _ a vs ws Ex R2); eauto; [apply Nat.eqb_refl|lia].
  Qed.

  Theorem C28_index_of id r o w v : returned h id r o v -> method o = Some (SIndexOf w) -> (forall i, untouched h i id r) ->
    exists a ws, covers a0 h id r o a (length ws) /\ has_values a0 h r a ws /\ v = ROptNat (first_index (fun x => eqv E x w) ws).
  Proof. intros R M U. destruct (reads_list id r o _ v R M eq_refl U) as (a & ws & C & H & Q). injection Q as <-. eauto. Qed.
  Theorem C28_contains id r o w v : returned h id r o v -> method o = Some (SContains w) -> (forall i, untouched h i id r) ->
    exists a ws, covers a0 h id r o a (length ws) /\ has_values a0 h r a ws /\ v = RBool (existsb (fun x => eqv E x w) ws).
  Proof. intros R M U. destruct (reads_list id r o _ v R M eq_refl U) as (a & ws & C & H & Q). injection Q as <-. eauto. Qed.
  Theorem C28_eq id r o l v : returned h id r o v -> method o = Some (SEqList l) -> (forall i, untouched h i id r) ->
    exists a ws b, covers a0 h id r o a (length ws) /\ has_values a0 h r a ws /\ v = RBool b /\
      (b = true <-> Forall2 (fun x y => eqv E x y = true) ws l).
  Proof.
    intros R M U. destruct (reads_list id r o _ v R M eq_refl U) as (a & ws & C & H & Q). injection Q as <-.
    exists a, ws, (same_lists (eqv E) ws l). repeat split; auto; [|apply forall2_same].
    clear. revert l. induction ws as [|x ws IH]; intros [|y l]; simpl; try discriminate; [constructor|]. intros H. apply andb_prop in H. constructor; [tauto|]. now apply IH.
  Qed.
  Theorem C28_debug id r o v : returned h id r o v -> method o = Some SDebug -> (forall i, untouched h i id r) ->
    exists a ws, covers a0 h id r o a (length ws) /\ has_values a0 h r a ws /\ v = RPieces (printed ws).
  Proof. intros R M U. destruct (reads_list id r o _ v R M eq_refl U) as (a & ws & C & H & Q). injection Q as <-. eauto. Qed.

  Theorem C29_map id r o f v : returned h id r o v -> method o = Some (SMap f) -> (forall i, untouched h i id r) ->
    exists a ws us, covers a0 h id r o a (length ws) /\ has_values a0 h r a ws /\ v = RVals us /\
      length us = length ws /\ forall k w u, nth_error ws k = Some w -> nth_error us k = Some u -> f k w = Some u.
  Proof.
    intros R M U. destruct (reads_list id r o _ v R M eq_refl U) as (a & ws & C & H & Q). simpl in Q.
    destruct (map_opt f ws) as [us|] eqn:F; [|discriminate]. injection Q as <-. exists a, ws, us. repeat (split; [auto; fail|]). now apply opt_map_some.
  Qed.
  Theorem C29_filter id r o f v : returned h id r o v -> method o = Some (SFilter f) -> (forall i, untouched h i id r) ->
    exists a ws bs, covers a0 h id r o a (length ws) /\ has_values a0 h r a ws /\ v = RElems (selected a bs) /\
      length bs = length ws /\ forall k w b, nth_error ws k = Some w -> nth_error bs k = Some b -> f k w = Some b.
  Proof.
    intros R M U. destruct (reads_list id r o _ v R M eq_refl U) as (a & ws & C & H & Q). simpl in Q.
    destruct (map_opt f ws) as [us|] eqn:F; [|discriminate]. injection Q as <-. exists a, ws, us. repeat (split; [auto; fail|]). now apply opt_map_some.
  Qed.
  Theorem C29_fold id r o u f v : returned h id r o v -> method o = Some (SFold u f) -> (forall i, untouched h i id r) ->
    exists a ws y, covers a0 h id r o a (length ws) /\ has_values a0 h r a ws /\ v = RVal y /\ fold_opt f u ws = Some y.
  Proof.
    intros R M U. destruct (reads_list id r o _ v R M eq_refl U) as (a & ws & C & H & Q). simpl in Q.
    destruct (fold_opt f u ws) as [y|] eqn:F; [|discriminate]. injection Q as <-. exists a, ws, y. auto.
  Qed.
  Theorem C29_reduce id r o f v : returned h id r o v -> method o = Some (SReduce f) -> (forall i, untouched h i id r) ->
    exists a ws, covers a0 h id r o a (length ws) /\ has_values a0 h r a ws /\
      match ws with [] => v = ROptVal None | w :: ws' => exists y, fold_opt f w ws' = Some y /\ v = ROptVal (Some y) end.
  Proof.
    intros R M U. destruct (reads_list id r o _ v R M eq_refl U) as (a & ws & C & H & Q). simpl in Q.
    exists a, ws. repeat split; auto. destruct ws as [|w ws]; [now injection Q as <-|].
    destruct (fold_opt f w ws) as [y|]; [|discriminate]. injection Q as <-. eauto.
  Qed.
  (** They panic only with the panic of the closure, when its application to the values of the list
      panics. *)
  Theorem C29_panic id r o q m : panicked h id r o m -> method o = Some q -> reads_all q = true -> (forall i, untouched h i id r) ->
    exists a ws, covers a0 h id r o a (length ws) /\ has_values a0 h r a ws /\ m = PClosure /\ list_result (eqv E) q a ws = None.
  Proof.
    intros R M Rq U. destruct (execution_expl _ _ _ _ _ _ c X) as (snap & Ex & _).
    destruct (h_panicked _ _ _ _ _ _ _ Ex _ _ _ _ R) as (Hi & Hr & He & _ & P). destruct R as (t & R1 & R2).
    destruct (pan_reads E o q m _ _ _ P M Rq) as (a & n & vs & -> & L1 & Ef & C & Rs).
    assert (C' : covers a0 h id r o a n).
    { eapply (covers_during E l0 c0 m0 c X snap id t o); eauto; [|apply Nat.eqb_refl]. intros i j ->. discriminate. }
    destruct (list_of (value (before a0 h r)) a n) as (ws & Lw & Hw). { eapply (read_inside snap id r _ t o q a n Ex R1 R2); eauto. apply Nat.eqb_refl. }
    exists a, ws. rewrite Lw. split; [assumption|]. rewrite <- Lw in Hw. split; [exact Hw|]. split; [reflexivity|]. apply Rs.
    eapply (read_prefix snap id r _ a vs ws Ex R2); eauto; [apply Nat.eqb_refl|lia].
  Qed.
End Views.

(** A history: growth concurrently with [map] and with [index_of], which stops early; the other methods;
    a closure that panics. *)
Definition plus1 (k v : nat) : option nat := if v =? 9 then None else Some (v + k + 1).
Definition is_even (k v : nat) : option bool := if v =? 9 then None else Some (Nat.even v).
Definition plus (k u v : nat) : option nat := if v =? 9 then None else Some (u + v).
Definition views_script : list (item nat) :=
  calls 0 (OExtend 2 [Some 6; Some 5]) ++ begin 1 (OMap plus1) 8 ++ calls 0 (OPush 8) ++ [Fin 1] ++
  begin 1 (OIndexOf 6) 12 ++ calls 0 (OPush 5) ++ [Fin 1] ++ calls 1 OIter ++ calls 1 OAsSlice ++
  calls 0 (OSl (CSlice 0 5) (SFilter is_even)) ++ calls 0 (OFold 1 plus) ++ calls 0 (OReduce plus) ++
  calls 0 (OContains 7) ++ calls 0 (OEqList [5; 6; 5; 8; 5]) ++ calls 0 ODebug ++ calls 0 (OFill 3) ++
  calls 0 (OFillWith (fun k => Some k)) ++ calls 0 (OPush 9) ++ calls 0 (OMap plus1).
Notation vs := (final [5] views_script).
Example views_execution : execution ex false false [5] 2 8 vs.
Proof. apply ex_final. vm_compute. reflexivity. Qed.
Lemma quiet_by {V} (h : list (event V)) j k :
  forallb (fun e => match e with EAcc _ _ (AcWrite _ _ _) | EAcc _ _ (AcSwap _ _ _ _) => false | _ => true end) (firstn (k - j) (skipn j h)) = true ->
  forall i, untouched h i j k.
Proof.
  intros H i. apply untouched_by. rewrite forallb_forall in *. intros e He. specialize (H e He). destruct e as [| | |id t []| |]; auto; discriminate.
Qed.
Example views_example_reads : returned (hist vs) 6 19 (OMap plus1) (RVals [6; 8; 8]) /\
  returned (hist vs) 20 31 (OIndexOf 6) (ROptNat (Some 1)) /\ visited 20 (hist vs) = [0; 1] /\
  returned (hist vs) 43 49 (OSl (CSlice 0 5) (SFilter is_even)) (RElems [1; 3]) /\
  returned (hist vs) 50 58 (OFold 1 plus) (RVal 30) /\ returned (hist vs) 59 69 (OReduce plus) (ROptVal (Some 29)) /\
  returned (hist vs) 70 78 (OContains 7) (RBool false) /\
  returned (hist vs) 79 87 (OEqList [5; 6; 5; 8; 5]) (RBool true) /\
  returned (hist vs) 88 96 ODebug (RPieces [POpen; PFirst 5; PNext 6; PNext 5; PNext 8; PNext 5; PClose]) /\
  (forall i, untouched (hist vs) i 0 97) /\ panicked (hist vs) 120 130 (OMap plus1) PClosure /\
  (forall i, untouched (hist vs) i 120 130).
Proof.
  split; [eexists; split; vm_compute; reflexivity|]. split; [eexists; split; vm_compute; reflexivity|].
  split; [vm_compute; reflexivity|]. do 6 (split; [eexists; split; vm_compute; reflexivity|]).
  split; [apply quiet_by; vm_compute; reflexivity|]. split; [eexists; split; vm_compute; reflexivity|apply quiet_by; vm_compute; reflexivity].
Qed.
Example views_example_writes : returned (hist vs) 32 36 OIter (RElems [0; 1; 2; 3; 4]) /\
  returned (hist vs) 97 105 (OFill 3) RUnit /\ written_vals 97 (hist vs) = [(5, 3); (6, 3); (5, 3); (8, 3); (5, 3)] /\
  returned (hist vs) 106 114 (OFillWith (fun k => Some k)) RUnit.
Proof.
  do 2 (split; [eexists; split; vm_compute; reflexivity|]). split; [vm_compute; reflexivity|]. eexists; split; vm_compute; reflexivity.
Qed.

Print Assumptions C24_iter.
Print Assumptions C24_reads.
Print Assumptions C24_values.
Print Assumptions C24_fill.
Print Assumptions C24_fill_with.
Print Assumptions C28_index_of.
Print Assumptions C28_contains.
Print Assumptions C28_eq.
Print Assumptions C28_debug.
Print Assumptions C29_map.
Print Assumptions C29_filter.
Print Assumptions C29_fold.
Print Assumptions C29_reduce.
Print Assumptions C29_panic.
