(** * Concrete executions, for the examples beside the theorems.

    [go E ro nl n0 c ls] runs the labels [ls] from [c] and checks the discipline of [Client.v] (in a
    form that can be computed); [go_execution] says that its result is an [execution]. *)

From Coq Require Import List Arith Bool Lia.
From Verif.Model Require Import Prog Mem Deps State Elem Vec Excl Machine.
From Verif Require Import Client Spec.
From Verif.Properties Require Import C33.
Import ListNotations.

Section Go.
  Context {V : Type} (E : env V) (ro nl : bool).

  Definition is_pan (e : event V) : bool := match e with EPan _ _ _ => true | _ => false end.
  Definition okb (n0 : nat) (c : cfg V) (l : label V) : bool :=
    match l with
    | LInv _ o =>
        ochk E && negb (mut_refs o) && (if ro then negb (updates o) else negb (derefs o)) &&
        (negb nl || negb (swaps o) || negb (hspin E)) && (requested n0 (hist c) + request o <? wmod E)
    | LStep _ => true
    | LClear => negb (existsb is_pan (hist c))
    | LReserve _ => true
    end.
  Fixpoint go (n0 : nat) (c : cfg V) (ls : list (label V)) : option (cfg V) :=
    match ls with
    | [] => Some c
    | l :: ls' => if okb n0 c l then match step E c l with Next c' => go n0 c' ls' | _ => None end else None
    end.

  Lemma okb_client n0 c l : okb n0 c l = true -> client E ro nl n0 c l.
  Proof.
    destruct l as [t o|t| |k]; simpl; auto.
    - rewrite !andb_true_iff, Nat.ltb_lt. intros ((((H1 & H2) & H3) & H4) & H5).
      apply negb_true_iff in H2. split; [|assumption]. split; [|split; [assumption|split]].
      + unfold ranges_ok, range_ok. destruct o; auto. destruct o; auto.
      + destruct ro; now apply negb_true_iff.
      + intros Hn Hs. rewrite Hn, Hs in H4. simpl in H4. now apply negb_true_iff.
    - intros H (h1 & id & t & m & h2 & o & Hh & _). rewrite Hh in H. rewrite existsb_app in H. simpl in H.
      rewrite orb_true_r in H. discriminate.
  Qed.
  Lemma go_reach n0 ls : forall c0 c c', reach E (client E ro nl n0) c0 c -> go n0 c ls = Some c' -> reach E (client E ro nl n0) c0 c'.
  Proof.
    induction ls as [|l ls IH]; intros c0 c c' R; simpl; [now intros [= <-]|].
    destruct (okb n0 c l) eqn:O; [|discriminate]. destruct (step E c l) as [d| |] eqn:S; try discriminate.
    apply IH. eapply reach_step; eauto. now apply okb_client.
  Qed.
  Lemma go_execution l0 c0 m0 ls c : env_ok E -> capok E c0 m0 -> length l0 <= c0 -> length l0 < wmod E ->
    go (length l0) (start l0 c0 m0) ls = Some c -> execution E ro nl l0 c0 m0 c.
  Proof.
    intros H1 H2 H3 H4 H. repeat (split; [assumption|]). eapply go_reach; [apply reach_start|exact H].
  Qed.
End Go.

(** Scripts: single labels, or thread [t] going on to the end of its call (within [fuel] steps). *)
Inductive item (V : Type) : Type := Lab (l : label V) | Fin (t : nat).
Global Arguments Lab {V}.
Global Arguments Fin {V}.
Section Play.
  Context {V : Type} (E : env V) (ro nl : bool).
  Fixpoint finish (fuel n0 : nat) (c : cfg V) (t : nat) : option (cfg V) :=
    match lookup t (run c) with
    | None => Some c
    | Some _ =>
        match fuel with
        | 0 => None
        | S k => match go E ro nl n0 c [LStep t] with Some c' => finish k n0 c' t | None => None end
        end
    end.
  Fixpoint play (n0 : nat) (c : cfg V) (s : list (item V)) : option (cfg V) :=
    match s with
    | [] => Some c
    | Lab l :: s' => match go E ro nl n0 c [l] with Some c' => play n0 c' s' | None => None end
    | Fin t :: s' => match finish 300 n0 c t with Some c' => play n0 c' s' | None => None end
    end.
  Lemma finish_reach n0 t fuel : forall c0 c c', reach E (client E ro nl n0) c0 c -> finish fuel n0 c t = Some c' ->
    reach E (client E ro nl n0) c0 c'.
  Proof.
    induction fuel as [|k IH]; intros c0 c c' R; cbn [finish]; destruct (lookup t (run c)); try discriminate; try (intros [= <-]; assumption).
    destruct (go E ro nl n0 c [LStep t]) as [d|] eqn:G; [|discriminate]. apply IH. eapply go_reach; eauto.
  Qed.
  Lemma play_reach n0 s : forall c0 c c', reach E (client E ro nl n0) c0 c -> play n0 c s = Some c' ->
    reach E (client E ro nl n0) c0 c'.
  Proof.
    induction s as [|[l|t] s IH]; intros c0 c c' R; cbn [play]; [now intros [= <-]| |].
    - destruct (go E ro nl n0 c [l]) as [d|] eqn:G; [|discriminate]. apply IH. eapply go_reach; eauto.
    - destruct (finish 300 n0 c t) as [d|] eqn:G; [|discriminate]. apply IH. eapply finish_reach; eauto.
  Qed.
  Lemma play_execution l0 c0 m0 s c : env_ok E -> capok E c0 m0 -> length l0 <= c0 -> length l0 < wmod E ->
    play (length l0) (start l0 c0 m0) s = Some c -> execution E ro nl l0 c0 m0 c.
  Proof.
    intros H1 H2 H3 H4 H. repeat (split; [assumption|]). eapply play_reach; [apply reach_start|exact H].
  Qed.
End Play.

(** Thread [t] calls [o] and makes [n] steps; makes [n] more steps; calls [o] and ends the call. *)
Definition begin {V} (t : nat) (o : op V) (n : nat) : list (item V) := Lab (LInv t o) :: repeat (Lab (LStep t)) n.
Definition more {V} (t n : nat) : list (item V) := repeat (Lab (LStep t)) n.
Definition calls {V} (t : nat) (o : op V) : list (item V) := [Lab (LInv t o); Fin t].

(** The vector used in most examples: [with_linear_growth(1, 4)] of numbers (fragments of 2 elements,
    at most 4 of them), overflow checks on, initial elements [l0] (at most 2 of them).  [final l0 s] is
    the configuration after the script [s]. *)
Definition ex : env nat := linear_env 1000 true Nat.eqb true 1.
Definition ex_play (ro nl : bool) (l0 : list nat) (s : list (item nat)) : option (cfg nat) :=
  play ex ro nl (length l0) (start l0 2 8) s.
Definition final (l0 : list nat) (s : list (item nat)) : cfg nat :=
  match ex_play false false l0 s with Some c => c | None => start l0 2 8 end.
Definition possible (l0 : list nat) (s : list (item nat)) : bool :=
  (length l0 <=? 2) && match ex_play false false l0 s with Some _ => true | None => false end.

Lemma ex_ok : env_ok ex.
Proof. apply C33_linear_ok. Qed.
Lemma ex_cap : capok ex 2 8.
Proof. apply (C33_linear 1000 true Nat.eqb true 1 4). lia. Qed.
Lemma ex_execution ro nl l0 s c : length l0 <= 2 -> ex_play ro nl l0 s = Some c -> execution ex ro nl l0 2 8 c.
Proof.
  intros H G. assert (2 < wmod ex) by (apply Nat.ltb_lt; vm_compute; reflexivity).
  eapply play_execution; [exact ex_ok|exact ex_cap|exact H|lia|exact G].
Qed.
Lemma ex_final l0 s : possible l0 s = true -> execution ex false false l0 2 8 (final l0 s).
Proof.
  unfold possible, final. rewrite andb_true_iff, Nat.leb_le. intros [H G].
  destruct (ex_play false false l0 s) eqn:Hg; [|discriminate]. now apply (ex_execution false false l0 s).
Qed.

(** computable forms of some hypotheses *)
Lemma no_panics {V} (h : list (event V)) : existsb is_pan h = false -> no_growth_panic h.
Proof.
  intros Q r id o m (t & _ & Hr). apply nth_error_In in Hr. exfalso.
  assert (Y : existsb is_pan h = true) by (apply existsb_exists; exists (EPan id t m); auto). rewrite Q in Y. discriminate.
Qed.
Lemma no_over {V} (h : list (event V)) : existsb is_pan h = false -> ~ overrun h.
Proof.
  intros Q (h1 & id & t & m & h2 & o & -> & _). rewrite existsb_app in Q. simpl in Q. rewrite orb_true_r in Q. discriminate.
Qed.
(** panics, but none that [overrun] speaks about *)
Definition farb {V} (o : op V) (m : panic) : bool :=
  match m, o with PMaxCap, _ => true | PClosure, OPushFor _ => true | _, _ => false end.
Definition overb {V} (h : list (event V)) : bool :=
  existsb (fun e => match e with EPan id _ m => match nth_error h id with Some (EInv _ _ o) => farb o m | _ => false end | _ => false end) h.
Lemma overb_not {V} (h : list (event V)) : overb h = false -> ~ overrun h.
Proof.
  intros Q (h1 & id & t & m & h2 & o & Hh & _ & Hi & C). assert (Y : overb h = true); [|congruence].
  apply existsb_exists. exists (EPan id t m). split; [rewrite Hh; apply in_or_app; simpl; auto|].
  rewrite Hh, nth_error_app1 by (apply nth_error_Some; congruence). rewrite Hi. destruct C as [->|[-> [f ->]]]; reflexivity.
Qed.
Lemma rest_by {V} (h : list (event V)) :
  forallb (fun e => match e with EInv id _ _ => existsb (is_end id) h | _ => true end) h = true -> at_rest h.
Proof.
  intros Q id t o [H1 H2]. apply nth_error_In in H1. rewrite forallb_forall in Q. apply Q in H1. simpl in H1. congruence.
Qed.
Lemma no_calls {V} (h : list (event V)) i j :
  forallb (fun e => match e with EInv _ _ _ => false | _ => true end) (firstn (j - S i) (skipn (S i) h)) = true ->
  forall k, i < k < j -> forall id t o, nth_error h k <> Some (EInv id t o).
Proof.
  intros Q k Hk id t o H. rewrite forallb_forall in Q.
  assert (I : In (EInv id t o) (firstn (j - S i) (skipn (S i) h))); [|apply Q in I; discriminate].
  rewrite <- (firstn_skipn (S i) h) in H. assert (Y : nth_error h k <> None) by (rewrite <- (firstn_skipn (S i) h), H; discriminate).
  apply nth_error_Some in Y. rewrite nth_error_app2 in H by (rewrite firstn_length; lia).
  rewrite firstn_length, Nat.min_l in H by lia.
  rewrite <- (firstn_skipn (j - S i) (skipn (S i) h)) in H. rewrite nth_error_app1 in H; [now apply nth_error_In in H|].
  rewrite firstn_length, skipn_length. lia.
Qed.
