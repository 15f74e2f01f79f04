(** * Consequences of the invariant for histories, in terms of the positions of events. *)

From Coq Require Import List Arith Bool Lia.
From Verif.Model Require Import Prog Mem Deps State Elem Vec Excl Machine.
From Verif Require Import Client Spec.
From Verif.Logic Require Import Inv WP Post Specs Ops Sound Shape Clients.
Import ListNotations.
Local Arguments Nat.leb : simpl never.
Local Arguments Nat.ltb : simpl never.
Local Arguments Nat.eqb : simpl never.
Local Arguments Nat.add : simpl never.
Local Arguments Nat.sub : simpl never.

Section Index.
  Context {A : Type}.
  Implicit Types h : list A.
  Lemma nth_split_firstn h k e : nth_error h k = Some e -> h = firstn k h ++ e :: skipn (S k) h.
  Proof.
    revert k. induction h as [|x h IH]; intros [|k] H; try discriminate; simpl in *.
    - now injection H as ->.
    - now rewrite <- (IH k H).
  Qed.
  Lemma nth_firstn h k j : j < k -> nth_error (firstn k h) j = nth_error h j.
  Proof.
    revert k j. induction h as [|x h IH]; intros [|k] [|j] H; simpl; auto; try lia.
    apply IH. lia.
  Qed.
  Lemma nth_firstn_some h k j e : nth_error (firstn k h) j = Some e -> j < k /\ nth_error h j = Some e.
  Proof.
    intros H. assert (j < k).
    { assert (X : nth_error (firstn k h) j <> None) by congruence. apply nth_error_Some in X.
      rewrite firstn_length in X. lia. }
    split; [assumption|]. rewrite nth_firstn in H; assumption.
  Qed.
  Lemma nth_lt h k e : nth_error h k = Some e -> k < length h.
  Proof. intros H. apply nth_error_Some. congruence. Qed.
  Lemma in_nth h e : In e h <-> exists k, nth_error h k = Some e.
  Proof.
    split; [apply In_nth_error|]. intros (k & H). eapply nth_error_In; eauto.
  Qed.
  Lemma firstn_cut h j k : j <= k -> exists h2, firstn k h = firstn j h ++ h2.
  Proof.
    revert j k. induction h as [|x h IH]; intros j k H.
    - exists []. now rewrite !firstn_nil.
    - destruct j as [|j]; [exists (firstn k (x :: h)); reflexivity|]. destruct k as [|k]; [lia|].
      destruct (IH j k ltac:(lia)) as (h2 & Hh). exists h2. simpl. now rewrite Hh.
  Qed.
  Lemma firstn_len h k : k <= length h -> length (firstn k h) = k.
  Proof. rewrite firstn_length. lia. Qed.
  Lemma firstn_S h k e : nth_error h k = Some e -> firstn (S k) h = firstn k h ++ [e].
  Proof.
    revert k. induction h as [|x h IH]; intros [|k] H; try discriminate; simpl in *.
    - now injection H as ->.
    - now rewrite (IH k H).
  Qed.
End Index.

Section Hist.
  Context {V : Type}.
  Implicit Types (h : list (event V)) (a : abs V).

  (** ** epochs *)
  Lemma epoch_mono h j k : j <= k -> epoch h j <= epoch h k.
  Proof.
    intros H. unfold epoch. destruct (firstn_cut h j k H) as (h2 & ->). rewrite filter_app, app_length. lia.
  Qed.
  Lemma epoch_S h k e : nth_error h k = Some e -> epoch h (S k) = epoch h k + if is_clear e then 1 else 0.
  Proof.
    intros H. unfold epoch. rewrite (firstn_S h k e H), filter_app, app_length. simpl. destruct (is_clear e); reflexivity.
  Qed.
  Lemma epoch_clear h i k j : epoch h i = epoch h k -> i <= j < k -> nth_error h j <> Some EClear.
  Proof.
    intros He Hj X. pose proof (epoch_mono h i j). pose proof (epoch_mono h (S j) k). pose proof (epoch_S h j _ X). simpl in *. lia.
  Qed.
  Lemma epoch_eq h i k : i <= k -> (forall j, i <= j < k -> nth_error h j <> Some EClear) -> epoch h i = epoch h k.
  Proof.
    intros H. induction H as [|k H IH]; intros N; [reflexivity|].
    rewrite IH by (intros j Hj; apply N; lia).
    destruct (nth_error h k) as [e|] eqn:X.
    - rewrite (epoch_S h k e X). destruct e; simpl; try lia. exfalso. apply (N k); [lia|assumption].
    - unfold epoch. apply nth_error_None in X. rewrite !firstn_all2 by lia. reflexivity.
  Qed.
  Lemma epoch_between h i j k : epoch h i = epoch h k -> i <= j <= k -> epoch h j = epoch h i.
  Proof. intros H Hj. pose proof (epoch_mono h i j). pose proof (epoch_mono h j k). lia. Qed.

  Lemma before_S a h k e : nth_error h k = Some e -> before a h (S k) = apply (before a h k) e.
  Proof. intros H. unfold before. rewrite (firstn_S h k e H). apply replay_snoc. Qed.
  Lemma before_all a h k : length h <= k -> before a h k = replay a h.
  Proof. intros H. unfold before. now rewrite firstn_all2. Qed.

  Lemma open_firstn h k id t o : open (firstn k h) id t o ->
    id < k /\ nth_error h id = Some (EInv id t o) /\
    forall r e, r < k -> nth_error h r = Some e -> is_end id e = false.
  Proof.
    intros [H1 H2]. apply nth_firstn_some in H1. destruct H1 as [H1 H3]. split; [assumption|]. split; [assumption|].
    intros r e Hr He. destruct (is_end id e) eqn:X; [|reflexivity]. exfalso.
    assert (existsb (is_end id) (firstn k h) = true); [|congruence]. apply existsb_exists. exists e. split; [|assumption].
    apply in_nth. exists r. now rewrite nth_firstn.
  Qed.
  Lemma firstn_open h k id t o : id < k -> nth_error h id = Some (EInv id t o) ->
    (forall r e, r < k -> nth_error h r = Some e -> is_end id e = false) -> open (firstn k h) id t o.
  Proof.
    intros H1 H2 H3. split; [now rewrite nth_firstn|]. destruct (existsb (is_end id) (firstn k h)) eqn:X; [|reflexivity].
    apply existsb_exists in X. destruct X as (e & Hin & He). apply in_nth in Hin. destruct Hin as (r & Hr).
    apply nth_firstn_some in Hr. destruct Hr as [Hr Hn]. rewrite (H3 r e Hr Hn) in He. discriminate.
  Qed.

  Lemma accs_firstn h k id x : In x (accs id (firstn k h)) -> exists j t, j < k /\ nth_error h j = Some (EAcc id t x).
  Proof.
    intros H. unfold accs in H. apply in_flat_map in H. destruct H as (e & Hin & He).
    apply in_nth in Hin. destruct Hin as (j & Hj). apply nth_firstn_some in Hj. destruct Hj as [Hj Hn].
    destruct e; try destruct He. destruct (Nat.eqb_spec id0 id) as [->|]; [|destruct He].
    simpl in He. destruct He as [->|[]]. eauto.
  Qed.
  Lemma firstn_accs h k id t x j : j < k -> nth_error h j = Some (EAcc id t x) -> In x (accs id (firstn k h)).
  Proof. intros H1 H2. apply accs_in with (t := t). apply in_nth. exists j. now rewrite nth_firstn. Qed.
End Hist.

Section Facts.
  Context {V : Type} (E : env V) (ro nl : bool) (l0 : list V) (m0 : nat).
  Context (snap : nat -> shared V) (h : list (event V)).
  Context (X : explained E ro nl l0 m0 snap h).
  Notation a0 := (abs0 l0 m0).
  Notation at_ k := (before a0 h k).
  Notation ev k e := (nth_error h k = Some e).

  Lemma h_ev k e : ev k e ->
    well_formed (firstn k h) e /\ legal (at_ k) e /\
    match e with
    | EInv _ _ o => (forall gr, needs o = Some gr -> grant_ok (snap k) gr) /\ allowed E ro nl o
    | ERet id t r => exists o, open (firstn k h) id t o /\ post E o r (accs id (firstn k h)) (snap id) (snap k) /\ Forall (grant_ok (snap k)) (grants r)
    | EPan id t m => exists o, open (firstn k h) id t o /\ pan E o m (accs id (firstn k h)) (snap id) (snap k)
    | EAcc _ _ (AcSt i x) => i < cap (snap k) /\ sst (slots (snap k) i) = x
    | EAcc _ _ (AcCap n) => cap (snap k) = n
    | _ => True
    end.
  Proof.
    intros H. pose proof (x_ev _ _ _ _ _ _ _ X (firstn k h) e (skipn (S k) h) (nth_split_firstn h k e H)) as Y.
    unfold evok in Y. rewrite (firstn_len h k) in Y by (apply nth_lt in H; lia).
    destruct Y as (Y1 & _ & _ & Y2 & Y3). split; [exact Y1|]. split; [exact Y2|exact Y3].
  Qed.

  Lemma h_good k : k <= length h -> good E ro (snap k) /\ agree (snap k) (at_ k).
  Proof.
    intros H. destruct (nth_error h k) as [e|] eqn:He.
    - pose proof (x_ev _ _ _ _ _ _ _ X (firstn k h) e (skipn (S k) h) (nth_split_firstn h k e He)) as Y.
      unfold evok in Y. rewrite (firstn_len h k) in Y by assumption. split; apply Y.
    - apply nth_error_None in He. assert (k = length h) by lia. subst k. rewrite before_all by lia. apply (x_last _ _ _ _ _ _ _ X).
  Qed.

  Lemma h_mono j k : j <= k -> k <= length h -> epoch h j = epoch h k -> mono (snap j) (snap k).
  Proof.
    intros H1 H2 He. destruct (firstn_cut h j k H1) as (h2 & Hc).
    pose proof (x_mono _ _ _ _ _ _ _ X (firstn j h) h2 (skipn k h)) as M.
    rewrite app_assoc, <- Hc, firstn_skipn in M. specialize (M eq_refl).
    rewrite !firstn_len in M by lia. apply M.
    intros Hin. unfold epoch in He. rewrite Hc, filter_app, app_length in He.
    assert (In EClear (filter is_clear h2)) by (apply filter_In; split; [assumption|reflexivity]).
    destruct (filter is_clear h2); simpl in *; [contradiction|lia].
  Qed.

  (** ** calls *)
  Lemma h_inv k id t o : ev k (EInv id t o) -> id = k.
  Proof. intros H. destruct (h_ev k _ H) as ((-> & _) & _). apply firstn_len. apply nth_lt in H. lia. Qed.

  (** the events of a call are in one epoch *)
  Lemma h_open k id t o : k <= length h -> open (firstn k h) id t o -> id < k /\ ev id (EInv id t o) /\ epoch h id = epoch h k /\
    forall r e, r < k -> ev r e -> is_end id e = false.
  Proof.
    intros Hk O. apply open_firstn in O. destruct O as (O1 & O2 & O3). split; [assumption|]. split; [assumption|].
    split; [|assumption]. apply epoch_eq; [lia|]. intros j Hj He.
    destruct (Nat.eq_dec j id) as [->|N]; [congruence|].
    destruct (h_ev j _ He) as (Rest & _). apply (Rest id t o). apply firstn_open; [lia|assumption|].
    intros r e Hr. apply O3. lia.
  Qed.
  Lemma h_acc k id t x : ev k (EAcc id t x) -> exists o, id < k /\ ev id (EInv id t o) /\ epoch h id = epoch h k /\
    forall r e, r < k -> ev r e -> is_end id e = false.
  Proof.
    intros H. destruct (h_ev k _ H) as ((o & O) & _). exists o. apply h_open; [apply nth_lt in H; lia|assumption].
  Qed.
  Lemma h_ret k id t v : ev k (ERet id t v) -> exists o, id < k /\ ev id (EInv id t o) /\ epoch h id = epoch h k /\
    (forall r e, r < k -> ev r e -> is_end id e = false) /\
    post E o v (accs id (firstn k h)) (snap id) (snap k) /\ Forall (grant_ok (snap k)) (grants v).
  Proof.
    intros H. destruct (h_ev k _ H) as (_ & _ & o & O & P & G). exists o.
    destruct (h_open k id t o) as (O1 & O2 & O3 & O4); [apply nth_lt in H; lia|assumption|].
    repeat (split; [assumption|]). assumption.
  Qed.
  Lemma h_pan k id t m : ev k (EPan id t m) -> exists o, id < k /\ ev id (EInv id t o) /\ epoch h id = epoch h k /\
    (forall r e, r < k -> ev r e -> is_end id e = false) /\
    pan E o m (accs id (firstn k h)) (snap id) (snap k).
  Proof.
    intros H. destruct (h_ev k _ H) as (_ & _ & o & O & P). exists o.
    destruct (h_open k id t o) as (O1 & O2 & O3 & O4); [apply nth_lt in H; lia|assumption|].
    repeat (split; [assumption|]). assumption.
  Qed.
  Lemma h_returned id r o v : returned h id r o v -> id < r /\ r < length h /\ epoch h id = epoch h r /\
    (forall j e, j < r -> ev j e -> is_end id e = false) /\
    post E o v (accs id (firstn r h)) (snap id) (snap r) /\ Forall (grant_ok (snap r)) (grants v).
  Proof.
    intros (t & H1 & H2). destruct (h_ret r id t v H2) as (o' & A1 & A2 & A3 & A4 & A5 & A6).
    assert (o' = o) by congruence. subst o'. pose proof (nth_lt _ _ _ H2). repeat (split; [assumption|]). assumption.
  Qed.
  Lemma h_panicked id r o m : panicked h id r o m -> id < r /\ r < length h /\ epoch h id = epoch h r /\
    (forall j e, j < r -> ev j e -> is_end id e = false) /\
    pan E o m (accs id (firstn r h)) (snap id) (snap r).
  Proof.
    intros (t & H1 & H2). destruct (h_pan r id t m H2) as (o' & A1 & A2 & A3 & A4 & A5).
    assert (o' = o) by congruence. subst o'. pose proof (nth_lt _ _ _ H2). repeat (split; [assumption|]). assumption.
  Qed.
  (** a call ends once, and makes no access after it *)
  Lemma h_end_once id r r' e e' : ev r e -> ev r' e' -> is_end id e = true -> is_end id e' = true -> r = r'.
  Proof.
    intros H1 H2 E1 E2.
    assert (K : forall r e, ev r e -> is_end id e = true -> forall j e', j < r -> ev j e' -> is_end id e' = false).
    { intros q x Hq Ex. destruct x; try discriminate; simpl in Ex; apply Nat.eqb_eq in Ex; subst id0.
      - destruct (h_ret q _ _ _ Hq) as (o & _ & _ & _ & Z & _). exact Z.
      - destruct (h_pan q _ _ _ Hq) as (o & _ & _ & _ & Z & _). exact Z. }
    destruct (Nat.lt_trichotomy r r') as [L|[L|L]]; [|assumption|].
    - rewrite (K r' e' H2 E2 r e L H1) in E1. discriminate.
    - rewrite (K r e H1 E1 r' e' L H2) in E2. discriminate.
  Qed.
  Lemma h_acc_end k id t x r e : ev k (EAcc id t x) -> ev r e -> is_end id e = true -> k < r.
  Proof.
    intros H1 H2 He. destruct (h_acc k id t x H1) as (o & _ & _ & _ & Z).
    destruct (Nat.lt_trichotomy k r) as [L|[L|L]]; [assumption| |].
    - subst r. rewrite H1 in H2. injection H2 as <-. discriminate.
    - rewrite (Z r e L H2) in He. discriminate.
  Qed.
  Lemma accs_cut id r k : r <= k -> (forall j t x, r <= j < k -> ev j (EAcc id t x) -> False) -> accs id (firstn k h) = accs id (firstn r h).
  Proof.
    intros H. induction H as [|k H IH]; intros N; [reflexivity|].
    rewrite <- IH by (intros j t x Hj; apply N; lia).
    destruct (nth_error h k) as [e|] eqn:He.
    - rewrite (firstn_S h k e He), accs_app. destruct e as [| | |id' t x| |]; try apply app_nil_r.
      simpl. destruct (Nat.eqb_spec id' id) as [->|]; [|apply app_nil_r]. exfalso. apply (N k t x); [lia|assumption].
    - apply nth_error_None in He. rewrite !firstn_all2 by lia. reflexivity.
  Qed.
  Lemma accs_all id r e : ev r e -> is_end id e = true -> accs id h = accs id (firstn r h).
  Proof.
    intros H He. rewrite <- (accs_cut id r (length h)); [now rewrite firstn_all|apply nth_lt in H; lia|].
    intros j t x Hj Hx. pose proof (h_acc_end j id t x r e Hx H He). lia.
  Qed.

  (** ** the abstract vector *)
  Lemma h_len j k : j <= k -> k <= length h -> epoch h j = epoch h k -> a_len (at_ j) <= a_len (at_ k).
  Proof.
    intros H1 H2 He. rewrite <- (ag_len _ _ (proj2 (h_good j ltac:(lia)))), <- (ag_len _ _ (proj2 (h_good k H2))).
    apply (h_mono j k); assumption.
  Qed.
  Lemma h_max j k : j <= k -> k <= length h -> a_max (at_ j) <= a_max (at_ k).
  Proof.
    intros H. induction H as [|k H IH]; intros Hk; [lia|]. specialize (IH ltac:(lia)).
    destruct (nth_error h k) as [e|] eqn:He.
    - rewrite (before_S _ h k e He). destruct (h_ev k e He) as (_ & Lg & _).
      destruct e as [| | |id' t []| |]; simpl in *; lia.
    - apply nth_error_None in He. lia.
  Qed.
  Lemma h_filled k i : k <= length h -> (filledp (snap k) i <-> exists v, a_pos (at_ k) i = Has v).
  Proof.
    intros Hk. destruct (h_good k Hk) as [[g I] A].
    rewrite <- (full_filled _ _ _ _ _ I), <- (cell_full _ _ _ _ _ I), (ag_val _ _ A). unfold value.
    destruct (a_pos (at_ k) i); simpl; split; try congruence; try (intros (w & Y); congruence); eauto.
  Qed.
  Lemma h_has j k i v : j <= k -> k <= length h -> epoch h j = epoch h k -> a_pos (at_ j) i = Has v -> exists w, a_pos (at_ k) i = Has w.
  Proof.
    intros H1 H2 He Hv. apply h_filled; [assumption|]. apply (h_mono j k H1 H2 He). apply h_filled; [lia|eauto].
  Qed.
  Lemma h_has_len k i v : k <= length h -> a_pos (at_ k) i = Has v -> i < a_len (at_ k).
  Proof.
    intros Hk Hv. destruct (h_good k Hk) as [G A]. rewrite <- (ag_len _ _ A).
    apply (good_filled_resv E ro); [assumption|]. apply h_filled; eauto.
  Qed.
  Lemma h_wrtn k i : k <= length h -> i < wrtn (snap k) -> exists v, a_pos (at_ k) i = Has v.
  Proof. intros Hk Hi. apply h_filled; [assumption|]. eapply good_filled_wrtn; [|exact Hi]. apply (h_good k Hk). Qed.
  (** the access [AcAdd] of a call *)
  Lemma h_add k id t b n : ev k (EAcc id t (AcAdd b n)) -> a_len (at_ k) = b /\ a_len (at_ (S k)) = b + n.
  Proof.
    intros H. destruct (h_ev k _ H) as (_ & L & _). simpl in L. split; [assumption|].
    rewrite (before_S _ h k _ H). simpl. congruence.
  Qed.
  (** two reservations in the same epoch: the earlier one has the smaller positions *)
  Lemma h_add_order j k id t b n id' t' b' n' : ev j (EAcc id t (AcAdd b n)) -> ev k (EAcc id' t' (AcAdd b' n')) ->
    epoch h j = epoch h k -> j < k -> b + n <= b'.
  Proof.
    intros H1 H2 He L. destruct (h_add j _ _ _ _ H1) as [_ <-]. destruct (h_add k _ _ _ _ H2) as [<- _].
    apply h_len; [lia|apply nth_lt in H2; lia|]. rewrite (epoch_S h j _ H1). simpl. lia.
  Qed.
End Facts.
