(** * A call that is alone in the vector, on the abstract vector. *)

From Coq Require Import List Arith Bool Lia.
From Verif.Model Require Import Prog Mem Deps State Elem Vec Excl Machine.
From Verif Require Import Client Spec Seq Lists ListSem.
From Verif.Logic Require Import Inv WP Post Facts.
Import ListNotations.

Section Splice.
  Context {V : Type}.
  Implicit Types (ws vs : list V).
  Lemma nth_skipn {A} n (l : list A) i : nth_error (skipn n l) i = nth_error l (n + i).
  Proof. revert l i. induction n as [|n IH]; intros [|x l] i; simpl; auto. now destruct i. Qed.
  Lemma nth_firstn_lt {A} n (l : list A) i : i < n -> nth_error (firstn n l) i = nth_error l i.
  Proof. revert l i. induction n as [|n IH]; intros [|x l] [|i] H; simpl; auto; [lia|lia|]. apply IH. lia. Qed.
  Lemma splice_len a vs ws : a + length vs <= length ws -> length (splice a vs ws) = length ws.
  Proof. intros H. unfold splice. rewrite !app_length, firstn_length, skipn_length. lia. Qed.
  Lemma splice_nth a vs ws i : a + length vs <= length ws ->
    nth_error (splice a vs ws) i = if (a <=? i) && (i <? a + length vs) then nth_error vs (i - a) else nth_error ws i.
  Proof.
    intros H. unfold splice. destruct (Nat.leb_spec a i) as [L|L]; simpl.
    - rewrite nth_error_app2 by (rewrite firstn_length; lia). rewrite firstn_length, Nat.min_l by lia.
      destruct (Nat.ltb_spec i (a + length vs)) as [L'|L'].
      + now rewrite nth_error_app1 by lia.
      + rewrite nth_error_app2 by lia. rewrite nth_skipn. f_equal. lia.
    - rewrite nth_error_app1 by (rewrite firstn_length; lia). apply nth_firstn_lt. lia.
  Qed.
  Lemma splice_one i v ws j : i < length ws -> nth_error (splice i [v] ws) j = if j =? i then Some v else nth_error ws j.
  Proof.
    intros H. rewrite splice_nth by (simpl; lia). simpl. destruct (Nat.eqb_spec j i) as [->|N].
    - rewrite Nat.leb_refl. destruct (Nat.ltb_spec i (i + 1)); [simpl; now rewrite Nat.sub_diag|lia].
    - destruct (Nat.leb_spec i j); destruct (Nat.ltb_spec j (i + 1)); simpl; auto; lia.
  Qed.
  Lemma list_ext {A} (l : list A) : forall l', (forall k, nth_error l k = nth_error l' k) -> l = l'.
  Proof.
    induction l as [|x l IH]; intros [|y l'] H; [reflexivity|specialize (H 0); discriminate|specialize (H 0); discriminate|].
    pose proof (H 0) as H0. injection H0 as ->. f_equal. apply IH. intros k. exact (H (S k)).
  Qed.
  Lemma splice_cons a v vs ws : a + S (length vs) <= length ws -> splice (S a) vs (splice a [v] ws) = splice a (v :: vs) ws.
  Proof.
    intros H. apply list_ext. intros k.
    rewrite splice_nth by (rewrite splice_len; simpl; lia). rewrite splice_one by lia. rewrite splice_nth by (simpl; lia). cbn [length].
    destruct (Nat.eqb_spec k a) as [->|N].
    - destruct (Nat.leb_spec (S a) a); [lia|]. rewrite andb_false_l, Nat.leb_refl, Nat.sub_diag. destruct (Nat.ltb_spec a (a + S (length vs))); [reflexivity|lia].
    - destruct (Nat.leb_spec (S a) k), (Nat.leb_spec a k); try lia; simpl; auto.
      replace (a + S (length vs)) with (S (a + length vs)) by lia. destruct (Nat.ltb_spec k (S (a + length vs))); auto.
      replace (k - a) with (S (k - S a)) by lia. reflexivity.
  Qed.
  Lemma splice_nil a ws : splice a [] ws = ws.
  Proof. unfold splice. simpl. rewrite Nat.add_0_r. apply firstn_skipn. Qed.
End Splice.

Section Single.
  Context {V : Type} (id : nat).
  Implicit Types (A B : abs V) (tr : list (acc V)) (ws vs : list V).
  Definition act1 A (x : acc V) : abs V := apply A (EAcc id 0 x).
  Definition acts A tr : abs V := fold_left act1 tr A.
  Fixpoint chain A tr : Prop :=
    match tr with [] => True | x :: tr' => legal A (EAcc id 0 x) /\ chain (act1 A x) tr' end.

  Lemma chain_app A tr tr' : chain A (tr ++ tr') <-> chain A tr /\ chain (acts A tr) tr'.
  Proof. revert A. induction tr as [|x tr IH]; intros A; simpl; [tauto|]. rewrite IH. tauto. Qed.
  Lemma acts_eff A tr : acts A (eff tr) = acts A tr.
  Proof. unfold acts. revert A. induction tr as [|x tr IH]; intros A; [reflexivity|]. destruct x; simpl; apply IH. Qed.
  Lemma chain_eff A tr : chain A tr -> chain A (eff tr).
  Proof. revert A. induction tr as [|x tr IH]; intros A; [auto|]. intros [H1 H2]. destruct x; simpl; auto; now apply IH. Qed.

  (** [A] and [B] have values at the same positions *)
  Definition alike A B : Prop :=
    a_len A = a_len B /\ a_max A = a_max B /\ forall i, (exists v, a_pos A i = Has v) <-> (exists v, a_pos B i = Has v).
  Lemma alike_refl A : alike A A.
  Proof. repeat split; auto. Qed.
  Definition keeps (x : acc V) : bool := match x with AcAdd _ _ | AcInit _ _ => false | _ => true end.
  Lemma keeps_alike A B x : alike A B -> legal B (EAcc id 0 x) -> keeps x = true -> alike A (act1 B x).
  Proof.
    intros (H1 & H2 & H3) L K. assert (D : forall i, (exists v, a_pos B i = Has v) <-> (exists v, a_pos (act1 B x) i = Has v)).
    { intros i. destruct x; try discriminate; unfold act1; simpl; try tauto; simpl in L; unfold upd.
      - destruct (Nat.eqb_spec i i0) as [->|]; [split; eauto|tauto].
      - destruct L as (_ & L1 & L2). destruct (Nat.eqb_spec i j) as [->|]; [split; eauto|]. destruct (Nat.eqb_spec i i0) as [->|]; [split; eauto|tauto]. }
    repeat split; [destruct x; try discriminate; auto|destruct x; try discriminate; auto| |]; intros Q.
    - apply D, H3, Q.
    - apply H3, D, Q.
  Qed.
  Lemma keeps_all A B tr : alike A B -> chain B tr -> (forall x, In x tr -> keeps x = true) -> alike A (acts B tr).
  Proof.
    revert B. induction tr as [|x tr IH]; intros B S C K; [exact S|]. destruct C as [C1 C2]. simpl.
    apply IH; auto using in_cons. apply keeps_alike; auto. apply K. now left.
  Qed.
  Lemma chain_in A tr x : chain A tr -> (forall y, In y tr -> keeps y = true) -> In x tr -> is_eff x = false -> legal A (EAcc id 0 x).
  Proof.
    intros C K I N. apply in_split in I. destruct I as (l1 & l2 & ->). apply chain_app in C. destruct C as [C1 [C2 _]].
    destruct (keeps_all A A l1 (alike_refl A) C1) as (H1 & H2 & H3). { intros y Hy. apply K. apply in_or_app. auto. }
    destruct x; try discriminate; simpl in *.
    - match goal with x : st |- _ => destruct x end; [intros v Hv; destruct (proj1 (H3 i) (ex_intro _ v Hv)) as (w & Hw); exact (C2 w Hw)|apply H3; assumption|apply H3; assumption].
    - congruence.
    - split; [rewrite H2; tauto|]. intros i v Hv. destruct (proj1 (H3 i) (ex_intro _ v Hv)) as (w & Hw). destruct C2 as [_ C2]. exact (C2 i w Hw).
  Qed.
  Lemma eff_keeps tr : (forall x, In x (eff tr) -> keeps x = true) -> forall x, In x tr -> keeps x = true.
  Proof. intros H x I. destruct (is_eff x) eqn:Q; [apply H; apply filter_In; auto|destruct x; auto; discriminate]. Qed.

  (** ** The list after the effects *)
  Definition shape A ws : Prop := forall i, value A i = nth_error ws i.
  Lemma has_value A i v : a_pos A i = Has v <-> value A i = Some v.
  Proof. unfold value. destruct (a_pos A i); simpl; split; congruence. Qed.
  Lemma acts_nil A tr : eff tr = [] -> acts A tr = A.
  Proof. intros H. now rewrite <- acts_eff, H. Qed.

  Lemma reads_in A a vs : chain A (reads a vs) -> acts A (reads a vs) = A /\ forall k, k < length vs -> value A (a + k) = nth_error vs k.
  Proof.
    unfold acts. revert a. induction vs as [|v vs IH]; intros a C; [split; [reflexivity|simpl; lia]|]. destruct C as [C1 C2]. simpl in *.
    change (act1 A (AcRead a v)) with A in *. destruct (IH (S a) C2) as [H1 H2]. split; [assumption|]. intros [|k] Hk.
    - rewrite Nat.add_0_r. now apply has_value.
    - replace (a + S k) with (S a + k) by lia. apply H2. lia.
  Qed.
  Lemma reads_prefix A ws a n vs : shape A ws -> chain A (reads a vs) -> a + n <= length ws -> length vs <= n -> firstn (length vs) (sublist a n ws) = vs.
  Proof.
    intros S C H L. destruct (reads_in A a vs C) as [_ R]. apply list_ext. intros k. destruct (Nat.lt_ge_cases k (length vs)) as [Hk|Hk].
    - rewrite nth_firstn_lt by assumption. unfold sublist. rewrite nth_firstn_lt by lia. rewrite nth_skipn, <- S. auto.
    - rewrite (proj2 (nth_error_None vs k) Hk). apply nth_error_None. rewrite firstn_length. lia.
  Qed.
  Lemma sublist_len a n ws : a + n <= length ws -> length (sublist a n ws) = n.
  Proof. intros H. unfold sublist. rewrite firstn_length, skipn_length. lia. Qed.

  Lemma write_shape A ws i v w : shape A ws -> i < length ws -> shape (act1 A (AcWrite i v w)) (splice i [w] ws).
  Proof.
    intros S H k. rewrite splice_one by assumption. unfold act1, value. simpl. unfold upd. destruct (k =? i); [reflexivity|apply S].
  Qed.
  Lemma writes_shape A ws a ps : shape A ws -> a + length ps <= length ws ->
    shape (acts A (writes a ps)) (splice a (map snd ps) ws) /\ a_len (acts A (writes a ps)) = a_len A.
  Proof.
    unfold acts. revert A ws a. induction ps as [|[v w] ps IH]; intros A ws a S H; simpl in *.
    - rewrite splice_nil. auto.
    - destruct (IH (act1 A (AcWrite a v w)) (splice a [w] ws) (Datatypes.S a)) as [H1 H2].
      + apply write_shape; [assumption|lia].
      + rewrite splice_len by (simpl; lia). lia.
      + rewrite splice_cons in H1 by (rewrite map_length; lia). split; [assumption|]. rewrite H2. reflexivity.
  Qed.
  Lemma writes_olds A ws a ps : shape A ws -> chain A (writes a ps) -> a + length ps <= length ws -> map fst ps = sublist a (length ps) ws.
  Proof.
    intros S C H. apply list_ext. intros k. destruct (Nat.lt_ge_cases k (length ps)) as [Hk|Hk].
    - unfold sublist. rewrite nth_firstn_lt, nth_skipn by assumption. revert A ws a k S C H Hk.
      induction ps as [|[v w] ps IH]; intros A ws a k S C H Hk; simpl in *; [lia|]. destruct C as [C1 C2]. destruct k as [|k]; simpl.
      + rewrite Nat.add_0_r, <- S. symmetry. now apply has_value.
      + rewrite (IH (act1 A (AcWrite a v w)) (splice a [w] ws) (Datatypes.S a)); auto; try lia.
        * rewrite splice_one by lia. destruct (Nat.eqb_spec (Datatypes.S a + k) a); [lia|]. f_equal. lia.
        * apply write_shape; [assumption|lia].
        * rewrite splice_len by (simpl; lia). lia.
    - rewrite (proj2 (nth_error_None _ k)) by (rewrite map_length; lia). symmetry. apply nth_error_None. rewrite sublist_len by lia. lia.
  Qed.
  Lemma shape_lt A ws i v : shape A ws -> a_pos A i = Has v -> nth_error ws i = Some v /\ i < length ws.
  Proof. intros S H. apply has_value in H. rewrite S in H. split; [assumption|]. apply nth_error_Some. congruence. Qed.
  Lemma swap_shape A ws i j v w : shape A ws -> i < length ws -> j < length ws ->
    shape (act1 A (AcSwap i j v w)) (splice j [v] (splice i [w] ws)).
  Proof.
    intros S Hi Hj k. rewrite splice_one by (rewrite splice_len; simpl; lia). rewrite splice_one by assumption.
    unfold act1, value. simpl. unfold upd. destruct (k =? j); [reflexivity|]. destruct (k =? i); [reflexivity|]. apply S.
  Qed.
  Lemma inits_shape A ws vs n : shape A ws -> length vs <= n -> chain A (AcAdd (length ws) n :: inits (length ws) vs) ->
    let B := acts A (AcAdd (length ws) n :: inits (length ws) vs) in
    shape B (ws ++ vs) /\ a_len B = a_len A + n /\ a_max B = a_max A.
  Proof.
    intros S L [_ C]. simpl. set (A1 := act1 A (AcAdd (length ws) n)) in *.
    assert (S1 : shape A1 ws).
    { intros k. unfold A1, act1, value. simpl. unfold in_range. destruct (Nat.leb_spec (length ws) k) as [H|H]; simpl; [|apply S].
      rewrite (proj2 (nth_error_None _ k) H). destruct (Nat.ltb_spec k (length ws + n)); [reflexivity|]. unfold shape, value in S. rewrite S. now apply nth_error_None. }
    assert (a_len A1 = a_len A + n /\ a_max A1 = a_max A) as [<- <-] by (split; reflexivity). clearbody A1. clear S C L.
    unfold acts. revert ws A1 S1. induction vs as [|v vs IH]; intros ws A1 S1; simpl; [rewrite app_nil_r; auto|].
    destruct (IH (ws ++ [v]) (act1 A1 (AcInit (length ws) v))) as (H1 & H2 & H3).
    - intros k. unfold act1, value. simpl. unfold upd. destruct (Nat.eqb_spec k (length ws)) as [->|N].
      + rewrite nth_error_app2, Nat.sub_diag by lia. reflexivity.
      + destruct (Nat.lt_ge_cases k (length ws)); [rewrite nth_error_app1 by assumption; apply S1|].
        rewrite (proj2 (nth_error_None _ k)) by (rewrite app_length; simpl; lia). unfold shape, value in S1. rewrite S1. apply nth_error_None. lia.
    - rewrite app_length in *. simpl in *. rewrite Nat.add_1_r in *. rewrite <- app_assoc in H1. simpl in H1. auto.
  Qed.
End Single.
