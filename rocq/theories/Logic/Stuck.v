(** * Calls that wait for each other. *)

From Coq Require Import List Arith Bool Lia.
From Verif.Model Require Import Prog Mem Deps State Elem Vec Excl Machine.
From Verif Require Import Client Spec.
From Verif.Logic Require Import Inv WP Post Specs Ops Sound Shape Clients Hist Facts.
Import ListNotations.

Section Stuck.
  Context {V : Type} (E : env V) (ro nl : bool) (l0 : list V) (c0 m0 : nat).
  Implicit Types (c : cfg V) (g : nat -> gst V) (p : prog V (ret V)).
  Notation world := (world E ro nl l0 m0).

  (** The next step of [p] is to wait for the element at position [i]. *)
  Definition waits_for i p : Prop :=
    exists ag k, p = Spin (CasSt i SOME RESERVED) ag k /\ ag (false, RESERVED) = true.
  Definition waitsb p : option nat :=
    match p with
    | Spin a ag _ =>
        match a as a' return (res a' -> bool) -> option nat with
        | CasSt i SOME RESERVED => fun ag => if ag (false, RESERVED) then Some i else None
        | _ => fun _ => None
        end ag
    | _ => None
    end.
  Lemma waitsb_for p i : waitsb p = Some i -> waits_for i p.
  Proof.
    destruct p as [| | |a ag k]; try discriminate. unfold waitsb. destruct a as [| | | | | | |j e n| | | | | | | | | | |]; try discriminate.
    destruct e; try discriminate. destruct n; try discriminate. destruct (ag (false, RESERVED)) eqn:A; [|discriminate].
    intros [= <-]. exists ag, k. auto.
  Qed.
  (** The threads in [S] wait for elements that are held by threads in [S]. *)
  Definition jam (S : nat -> Prop) c g : Prop :=
    forall t, S t -> exists x i u m, lookup t (run c) = Some x /\ waits_for i (c_prog x) /\ g i = GLock u m /\ S u.

  Lemma jam_step (EOK : env_ok E) (S : nat -> Prop) (D : forall t, {S t} + {~ S t}) c snap g l c' :
    world c snap g -> jam S c g -> client E ro nl (length l0) c l -> step E c l = Next c' ->
    exists snap' g', world c' snap' g' /\ jam S c' g' /\ forall t, S t -> lookup t (run c') = lookup t (run c).
  Proof.
    intros W J C St.
    destruct (step_world E ro nl l0 c0 m0 EOK c snap g l c' W C St) as (snap' & g' & W' & O).
    assert (G : forall (A : forall u, actor u l -> ~ S u) t, S t -> lookup t (run c') = lookup t (run c) ->
      exists x i u m, lookup t (run c') = Some x /\ waits_for i (c_prog x) /\ g' i = GLock u m /\ S u).
    { intros A t Ht Hl. destruct (J t Ht) as (x & i & u & m & H1 & H2 & H3 & H4). exists x, i, u, m.
      rewrite Hl. repeat (split; [assumption|]). split; [|assumption].
      apply (own_lock u (g i) (g' i) m); [symmetry; apply O; intros Hu; exact (A u Hu H4)|assumption]. }
    pose proof (b_nd _ _ _ (w_b _ _ _ _ _ _ _ _ W)) as ND.
    destruct l as [t o|t| |k]; simpl in St.
    - destruct (lookup t (run c)) eqn:Lk; [discriminate|]. destruct (has_grant o (given c)); [|discriminate]. injection St as <-.
      assert (Nt : ~ S t). { intros Ht. destruct (J t Ht) as (x & _ & _ & _ & H & _). congruence. }
      assert (L : forall u, S u -> lookup u ((t, Call (length (hist c)) o (op_prog E o)) :: run c) = lookup u (run c)).
      { intros u Hu. simpl. destruct (Nat.eqb_spec u t) as [->|]; [contradiction|reflexivity]. }
      exists snap', g'. split; [assumption|]. split; [|exact L]. intros u Hu. apply G; [|assumption|apply L, Hu].
      intros w Hw. simpl in Hw. now subst w.
    - destruct (D t) as [Ht|Nt].
      + (* it goes on waiting *)
        destruct (J t Ht) as (x & i & u & m & H1 & (ag & k & H2 & Ag) & H3 & H4).
        unfold step_thread in St. rewrite H1, H2 in St.
        pose proof (i_slot _ _ _ _ (gi_inv _ _ _ _ _ _ _ _ (w_gi _ _ _ _ _ _ _ _ W)) i) as Sl. rewrite H3 in Sl.
        assert (R : i < cap (sh c) /\ sst (slots (sh c) i) = RESERVED) by (destruct m; split; apply Sl).
        destruct R as [R1 R2]. simpl in St. unfold with_slot in St. apply Nat.ltb_lt in R1. rewrite R1, R2 in St. simpl in St. rewrite Ag in St. injection St as <-.
        exists snap, g. auto.
      + assert (L : forall u, S u -> lookup u (run c') = lookup u (run c)).
        { intros u Hu. assert (u <> t) by congruence. unfold step_thread in St.
          destruct (lookup t (run c)) as [x|] eqn:Lk; [|discriminate].
          assert (R : lookup u (remove t (run c)) = lookup u (run c)) by now apply lookup_remove_other.
          assert (A : forall p s l, lookup u (run (after t c x p s l)) = lookup u (run c)).
          { intros p s l. rewrite after_lookup' by assumption. now destruct (Nat.eqb_spec u t). }
          destruct (c_prog x) as [r|m'|a k|a ag k] eqn:Hp.
          - injection St as <-. exact R.
          - injection St as <-. exact R.
          - destruct (exec E t a (sh c)) eqn:Ex; [|discriminate]. injection St as <-. apply A.
          - destruct (exec E t a (sh c)) eqn:Ex; [|discriminate]. destruct (ag x0) eqn:Ag; injection St as <-; [reflexivity|apply A]. }
        exists snap', g'. split; [assumption|]. split; [|exact L]. intros u Hu. apply G; [|assumption|apply L, Hu].
        intros w Hw. simpl in Hw. now subst w.
    - assert (N : forall t, ~ S t).
      { intros t Ht. destruct (J t Ht) as (x & _ & _ & _ & H & _). destruct (run c) as [|]; [discriminate|]. discriminate. }
      exists snap', g'. split; [assumption|]. split; intros t Ht; destruct (N t Ht).
    - assert (N : forall t, ~ S t).
      { intros t Ht. destruct (J t Ht) as (x & _ & _ & _ & H & _). destruct (run c) as [|]; [discriminate|]. discriminate. }
      exists snap', g'. split; [assumption|]. split; intros t Ht; destruct (N t Ht).
  Qed.

  (** They never go on. *)
  Lemma jam_forever (S : nat -> Prop) (D : forall t, {S t} + {~ S t}) c snap g c' :
    execution E ro nl l0 c0 m0 c -> world c snap g -> jam S c g -> reach E (client E ro nl (length l0)) c c' ->
    forall t, S t -> lookup t (run c') = lookup t (run c).
  Proof.
    intros X W J R. assert (K : exists snap' g', world c' snap' g' /\ jam S c' g' /\ forall t, S t -> lookup t (run c') = lookup t (run c)).
    { induction R as [|c1 l c2 R IH C St]; [eauto 6|]. destruct IH as (s1 & g1 & W1 & J1 & L1).
      destruct (jam_step (proj1 X) S D c1 s1 g1 l c2 W1 J1 C St) as (s2 & g2 & W2 & J2 & L2).
      exists s2, g2. split; [assumption|]. split; [assumption|]. intros t Ht. now rewrite L2, L1. }
    destruct K as (_ & _ & _ & _ & K). exact K.
  Qed.

  (** A form that can be checked on a configuration: all running threads wait for elements in use. *)
  Lemma all_jam c snap g : world c snap g ->
    (forall t x, lookup t (run c) = Some x -> exists i, waits_for i (c_prog x) /\ i < cap (sh c) /\ sst (slots (sh c) i) = RESERVED) ->
    jam (fun t => lookup t (run c) <> None) c g.
  Proof.
    intros W H t Ht. destruct (lookup t (run c)) as [x|] eqn:Lk; [|contradiction].
    destruct (H t x Lk) as (i & H1 & H2 & H3).
    destruct (locked_by E ro nl l0 m0 c snap g i (w_gi _ _ _ _ _ _ _ _ W) H2 H3) as (u & m & y & Hg & Ly).
    exists x, i, u, m. rewrite Ly. repeat (split; [assumption||reflexivity|]). discriminate.
  Qed.

  Lemma lookup_in t (r : list (nat * call V)) x : lookup t r = Some x -> In (t, x) r.
  Proof.
    induction r as [|[u y] r IH]; simpl; [discriminate|]. destruct (Nat.eqb_spec t u) as [->|]; [intros [= ->]; auto|auto].
  Qed.
  Definition all_wait c : bool :=
    forallb (fun '(_, x) => match waitsb (c_prog x) with
                            | Some i => (i <? cap (sh c)) && st_eqb (sst (slots (sh c) i)) RESERVED
                            | None => false
                            end) (run c).
  Lemma all_waits c : all_wait c = true ->
    forall t x, lookup t (run c) = Some x -> exists i, waits_for i (c_prog x) /\ i < cap (sh c) /\ sst (slots (sh c) i) = RESERVED.
  Proof.
    unfold all_wait. rewrite forallb_forall. intros H t x Lk. apply lookup_in in Lk. apply H in Lk.
    destruct (waitsb (c_prog x)) as [i|] eqn:W; [|discriminate]. apply andb_true_iff in Lk. destruct Lk as [L1 L2].
    exists i. split; [now apply waitsb_for|]. split; [now apply Nat.ltb_lt|]. now destruct (sst (slots (sh c) i)).
  Qed.

  Lemma jam_open c c' t x : execution E ro nl l0 c0 m0 c -> 
    (forall t x, lookup t (run c) = Some x -> exists i, waits_for i (c_prog x) /\ i < cap (sh c) /\ sst (slots (sh c) i) = RESERVED) ->
    reach E (client E ro nl (length l0)) c c' -> lookup t (run c) = Some x -> open (hist c') (c_id x) t (c_op x).
  Proof.
    intros X H R Lk. destruct (execution_world _ _ _ _ _ _ c X) as (snap & g & W).
    assert (Lk' : lookup t (run c') = Some x).
    { rewrite <- Lk. eapply (jam_forever (fun t => lookup t (run c) <> None)); eauto.
      - intros u. destruct (lookup u (run c)); [left; discriminate|right; auto].
      - eapply all_jam; eauto.
      - simpl. congruence. }
    destruct (execution_world _ _ _ _ _ _ c' (execution_reach _ _ _ _ _ _ c c' X R)) as (snap' & g' & W').
    apply (gi_run _ _ _ _ _ _ _ _ (w_gi _ _ _ _ _ _ _ _ W') t x Lk').
  Qed.
End Stuck.
