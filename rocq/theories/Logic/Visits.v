(** * The positions a call visited, from the relations of [Post.v]. *)

From Coq Require Import List Arith Bool Lia.
From Verif.Model Require Import Prog Mem Deps State Elem Vec Excl Machine.
From Verif Require Import Client Spec Lists.
From Verif.Logic Require Import Inv WP Post.
Import ListNotations.

Section Visits.
  Context {V : Type}.
  Lemma visited_eff id (h : list (event V)) : visited id h =
    flat_map (fun a => match a with AcRead i _ | AcWrite i _ _ => [i] | AcSwap i j _ _ => [i; j] | _ => [] end) (eff (accs id h)).
  Proof. unfold visited, eff. induction (accs id h) as [|x l IH]; [reflexivity|]. destruct x; simpl; rewrite ?IH; reflexivity. Qed.
  Lemma read_eff id (h : list (event V)) : read_vals id h = flat_map (fun a => match a with AcRead _ v => [v] | _ => [] end) (eff (accs id h)).
  Proof. unfold read_vals, eff. induction (accs id h) as [|x l IH]; [reflexivity|]. destruct x; simpl; rewrite ?IH; reflexivity. Qed.
  Lemma written_eff id (h : list (event V)) : written_vals id h = flat_map (fun a => match a with AcWrite _ v w => [(v, w)] | _ => [] end) (eff (accs id h)).
  Proof. unfold written_vals, eff. induction (accs id h) as [|x l IH]; [reflexivity|]. destruct x; simpl; rewrite ?IH; reflexivity. Qed.
  Lemma of_reads id (h : list (event V)) a vs : eff (accs id h) = reads a vs -> visited id h = seq a (length vs) /\ read_vals id h = vs /\ written_vals id h = [].
  Proof.
    intros H. rewrite visited_eff, read_eff, written_eff, H. clear H. revert a. induction vs as [|v vs IH]; intros a; [auto|].
    destruct (IH (S a)) as (H1 & H2 & H3). simpl. rewrite H1, H2, H3. auto.
  Qed.
  Lemma of_writes id (h : list (event V)) a ps : eff (accs id h) = writes a ps -> visited id h = seq a (length ps) /\ read_vals id h = [] /\ written_vals id h = ps.
  Proof.
    intros H. rewrite visited_eff, read_eff, written_eff, H. clear H. revert a. induction ps as [|[v w] vs IH]; intros a; [auto|].
    destruct (IH (S a)) as (H1 & H2 & H3). simpl. rewrite H1, H2, H3. auto.
  Qed.
  Lemma closure_values (f : nat -> option V) (ps : list (V * V)) : (forall k p, nth_error ps k = Some p -> f k = Some (snd p)) ->
    map Some (map snd ps) = map f (seq 0 (length ps)).
  Proof.
    assert (G : forall s, (forall k p, nth_error ps k = Some p -> f (s + k) = Some (snd p)) -> map Some (map snd ps) = map f (seq s (length ps))).
    { induction ps as [|p ps' IH]; intros s F; simpl; [reflexivity|]. f_equal.
      - specialize (F 0 p eq_refl). rewrite Nat.add_0_r in F. auto.
      - apply IH. intros k p' Hk. specialize (F (S k) p' Hk). now rewrite Nat.add_succ_r in F. }
    exact (G 0).
  Qed.
End Visits.
