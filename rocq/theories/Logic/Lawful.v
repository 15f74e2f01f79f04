(** * Histories whose events are all possible, whatever machine they come from. *)

From Coq Require Import List Arith Bool Lia.
From Verif.Model Require Import Prog Mem Deps State Elem Vec Excl Machine.
From Verif Require Import Client Spec.
From Verif.Logic Require Import Inv WP Post Specs Ops Sound Shape Clients Hist Facts.
Import ListNotations.
Local Arguments Nat.leb : simpl never.
Local Arguments Nat.ltb : simpl never.
Local Arguments Nat.eqb : simpl never.
Local Arguments Nat.add : simpl never.
Local Arguments Nat.sub : simpl never.

Definition lawful {V} (l0 : list V) (m0 : nat) (h : list (event V)) : Prop :=
  forall k e, nth_error h k = Some e -> well_formed (firstn k h) e /\ legal (before (abs0 l0 m0) h k) e.
Lemma explained_lawful {V} (E : env V) ro nl l0 m0 snap h : explained E ro nl l0 m0 snap h -> lawful l0 m0 h.
Proof. intros X k e He. destruct (h_ev _ _ _ _ _ _ _ X k e He) as (A & B & _). auto. Qed.

Section Lawful.
  Context {V : Type} (l0 : list V) (m0 : nat) (h : list (event V)).
  Context (L : lawful l0 m0 h).
  Notation a0 := (abs0 l0 m0).
  Notation at_ k := (before a0 h k).
  Notation ev k e := (nth_error h k = Some e).

  (** ** calls *)
  Lemma l_inv k id t o : ev k (EInv id t o) -> id = k.
  Proof. intros H. destruct (L k _ H) as ((-> & _) & _). apply firstn_len. apply nth_lt in H. lia. Qed.
  Lemma l_open k id t o : k <= length h -> open (firstn k h) id t o -> id < k /\ ev id (EInv id t o) /\ epoch h id = epoch h k /\
    forall r e, r < k -> ev r e -> is_end id e = false.
  Proof.
    intros Hk O. apply open_firstn in O. destruct O as (O1 & O2 & O3). split; [assumption|]. split; [assumption|].
    split; [|assumption]. apply epoch_eq; [lia|]. intros j Hj He.
    destruct (Nat.eq_dec j id) as [->|N]; [congruence|].
    destruct (L j _ He) as (Rest & _). apply (Rest id t o). apply firstn_open; [lia|assumption|].
    intros r e Hr. apply O3. lia.
  Qed.
  Lemma l_acc k id t x : ev k (EAcc id t x) -> exists o, id < k /\ ev id (EInv id t o) /\ epoch h id = epoch h k /\
    forall r e, r < k -> ev r e -> is_end id e = false.
  Proof.
    intros H. destruct (L k _ H) as ((o & O) & _). exists o. apply l_open; [apply nth_lt in H; lia|assumption].
  Qed.
  Lemma l_end k id e : ev k e -> is_end id e = true -> exists t o, id < k /\ ev id (EInv id t o) /\ epoch h id = epoch h k /\
    (forall r e, r < k -> ev r e -> is_end id e = false) /\ ((exists v, e = ERet id t v) \/ exists m, e = EPan id t m).
  Proof.
    intros H He. assert (Hk := nth_lt _ _ _ H).
    destruct e as [|id' t v|id' t m| | |]; try discriminate; simpl in He; apply Nat.eqb_eq in He; subst id';
      destruct (L k _ H) as ((o & O) & _); exists t, o; destruct (l_open k id t o) as (O1 & O2 & O3 & O4); try lia; try assumption;
      repeat (split; [assumption|]); eauto.
  Qed.
  Lemma l_end_once id r r' e e' : ev r e -> ev r' e' -> is_end id e = true -> is_end id e' = true -> r = r'.
  Proof.
    intros H1 H2 E1 E2. destruct (l_end r id e H1 E1) as (_ & _ & _ & _ & _ & K1 & _). destruct (l_end r' id e' H2 E2) as (_ & _ & _ & _ & _ & K2 & _).
    destruct (Nat.lt_trichotomy r r') as [Q|[Q|Q]]; [|assumption|].
    - rewrite (K2 r e Q H1) in E1. discriminate.
    - rewrite (K1 r' e' Q H2) in E2. discriminate.
  Qed.
  Lemma l_acc_end k id t x r e : ev k (EAcc id t x) -> ev r e -> is_end id e = true -> k < r.
  Proof.
    intros H1 H2 He. destruct (l_acc k id t x H1) as (o & _ & _ & _ & Z).
    destruct (Nat.lt_trichotomy k r) as [Q|[Q|Q]]; [assumption| |].
    - subst r. rewrite H1 in H2. injection H2 as <-. discriminate.
    - rewrite (Z r e Q H2) in He. discriminate.
  Qed.
  Lemma l_accs_all id r e : ev r e -> is_end id e = true -> accs id h = accs id (firstn r h).
  Proof.
    intros H He. rewrite <- (accs_cut h id r (length h)); [now rewrite firstn_all|apply nth_lt in H; lia|].
    intros j t x Hj Hx. pose proof (l_acc_end j id t x r e Hx H He). lia.
  Qed.
  Lemma l_in_accs id r x e : In x (accs id (firstn r h)) -> ev r e -> is_end id e = true ->
    exists j t, id < j < r /\ ev j (EAcc id t x) /\ epoch h j = epoch h id.
  Proof.
    intros H He Hr. apply accs_firstn in H. destruct H as (j & t & Hj & Hx).
    destruct (l_acc j id t x Hx) as (o & A1 & _ & A2 & _). exists j, t. auto.
  Qed.
  Lemma l_one_of (p : acc V -> bool) id r e x : ev r e -> is_end id e = true -> filter p (accs id (firstn r h)) = [x] ->
    exists k t, id < k < r /\ ev k (EAcc id t x) /\ epoch h k = epoch h id /\
      forall k' t' y, ev k' (EAcc id t' y) -> k' <> k -> p y = false.
  Proof.
    intros Hr He Ef. assert (Hx : In x (filter p (accs id (firstn r h)))) by (rewrite Ef; now left). apply filter_In in Hx. destruct Hx as [Hx Hf].
    destruct (l_in_accs id r x e Hx Hr He) as (k & t & Hk & Hn & Hep). exists k, t.
    split; [assumption|]. split; [assumption|]. split; [assumption|].
    intros k' t' y Hy N. destruct (p y) eqn:Fy; [|reflexivity]. exfalso.
    pose proof (l_acc_end k' id t' y r e Hy Hr He) as Lk.
    assert (T : exists u v l1 l2 l3, accs id (firstn r h) = l1 ++ u :: l2 ++ v :: l3 /\ p u = true /\ p v = true).
    { destruct (Nat.lt_ge_cases k k').
      - destruct (accs_two h id r k k' t t' x y) as (l1 & l2 & l3 & Q); try lia; auto. exists x, y. eauto 8.
      - destruct (accs_two h id r k' k t' t y x) as (l1 & l2 & l3 & Q); try lia; auto. exists y, x. eauto 8. }
    destruct T as (u & v & l1 & l2 & l3 & Q & Fu & Fv). rewrite Q in Ef.
    apply (f_equal (@length _)) in Ef. rewrite !filter_app, app_length in Ef. simpl in Ef. rewrite Fu in Ef. simpl in Ef.
    rewrite filter_app, app_length in Ef. simpl in Ef. rewrite Fv in Ef. simpl in Ef. lia.
  Qed.
  Lemma l_one_eff id r e x : ev r e -> is_end id e = true -> eff (accs id (firstn r h)) = [x] ->
    exists k t, id < k < r /\ ev k (EAcc id t x) /\ epoch h k = epoch h id /\
      forall k' t' y, ev k' (EAcc id t' y) -> k' <> k -> is_eff y = false.
  Proof. apply l_one_of. Qed.

  (** ** the abstract vector *)
  (** positions that were not handed out *)
  Lemma l_beyond k i : k <= length h -> a_len (at_ k) <= i -> a_pos (at_ k) i = Unreserved.
  Proof.
    revert i. induction k as [|k IH]; intros i Hk Hi.
    - unfold before in *. simpl in *. destruct (nth_error l0 i) eqn:Q; [|reflexivity]. apply nth_lt in Q. lia.
    - destruct (nth_error h k) as [e|] eqn:He; [|apply nth_error_None in He; lia]. destruct (L k e He) as [_ Lg]. specialize (IH i ltac:(lia)).
      rewrite (before_S a0 h k e He) in *.
      assert (K : forall j v, a_pos (at_ k) j = Has v -> a_len (at_ k) <= i -> i <> j) by (intros j v Q Hl e'; subst j; rewrite IH in Q by assumption; discriminate).
      destruct e as [| |id t m|id t [b n|j v|j v|j old w|p q v w|j x|n|n]| |]; simpl in *; auto.
      + now rewrite IH.
      + unfold in_range. destruct (Nat.leb_spec b i), (Nat.ltb_spec i (b + n)); simpl; try lia; apply IH; lia.
      + unfold upd. destruct (Nat.eqb_spec i j) as [->|]; [rewrite IH in Lg by assumption; discriminate|auto].
      + unfold upd. destruct (Nat.eqb_spec i j) as [->|]; [rewrite IH in Lg by assumption; discriminate|auto].
      + destruct Lg as (_ & L1 & L2). rewrite !upd_other; eauto.
  Qed.
  Lemma l_has_len k i v : k <= length h -> a_pos (at_ k) i = Has v -> i < a_len (at_ k).
  Proof. intros Hk Hv. destruct (Nat.lt_ge_cases i (a_len (at_ k))); [assumption|]. rewrite l_beyond in Hv by assumption. discriminate. Qed.
  Lemma l_value k e i : ev k e -> ~ changes i e -> value (at_ (S k)) i = value (at_ k) i.
  Proof.
    intros He N. rewrite (before_S _ h k e He). apply value_apply; [assumption|]. intros id t b n ->.
    destruct (value (at_ k) i) as [v|] eqn:Hv; [right|now left]. unfold value in Hv.
    destruct (a_pos (at_ k) i) as [| | |w] eqn:Hp; try discriminate.
    pose proof (nth_lt _ _ _ He). pose proof (l_has_len k i w ltac:(lia) Hp).
    destruct (L k _ He) as (_ & Lg). simpl in Lg. lia.
  Qed.
  Lemma l_len j k : j <= k -> k <= length h -> epoch h j = epoch h k -> a_len (at_ j) <= a_len (at_ k).
  Proof.
    intros H. induction H as [|k H IH]; intros Hk He; [lia|]. assert (epoch h j = epoch h k) by (pose proof (epoch_mono h j k); pose proof (epoch_mono h k (S k)); lia).
    rewrite IH by (auto; lia). destruct (nth_error h k) as [e|] eqn:Q; [|apply nth_error_None in Q; lia].
    rewrite (before_S a0 h k e Q). pose proof (epoch_S h k e Q). destruct e as [| |id t m|id t []| |]; simpl in *; lia.
  Qed.
  Lemma l_has j k i v : j <= k -> k <= length h -> epoch h j = epoch h k -> a_pos (at_ j) i = Has v -> exists w, a_pos (at_ k) i = Has w.
  Proof.
    intros H. induction H as [|k H IH]; intros Hk He Hv; [eauto|]. assert (epoch h j = epoch h k) by (pose proof (epoch_mono h j k); pose proof (epoch_mono h k (S k)); lia).
    destruct IH as (w & Hw); auto; [lia|]. destruct (nth_error h k) as [e|] eqn:Q; [|apply nth_error_None in Q; lia].
    pose proof (l_has_len k i w ltac:(lia) Hw). destruct (L k e Q) as [_ Lg].
    rewrite (before_S a0 h k e Q). pose proof (epoch_S h k e Q). destruct e as [| |id t m|id t [b n|p u|p u|p old u|p q u u'|p x|n|n]| |]; simpl in *; eauto.
    - rewrite Hw. eauto.
    - unfold in_range. destruct (Nat.leb_spec b i); [lia|]. simpl. eauto.
    - unfold upd. destruct (i =? p); eauto.
    - unfold upd. destruct (i =? p); eauto.
    - unfold upd. destruct (i =? q), (i =? p); eauto.
    - lia.
  Qed.
End Lawful.
