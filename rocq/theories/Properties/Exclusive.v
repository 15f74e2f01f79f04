(** * C30, C38: operations with exclusive access. *)

From Coq Require Import List Arith Bool Lia.
From Verif.Model Require Import Prog Mem Deps State Elem Vec Excl Machine.
From Verif Require Import Client Spec.
From Verif.Logic Require Import Inv WP Post Specs Ops Sound Shape Clients Hist Locks Facts.
From Verif.Properties Require Import Examples Growth.
Import ListNotations.

(** The configuration [c] with the events [h] in front of its history (calls are identified by
    positions in the history). *)
Definition moved_event {V} (n : nat) (e : event V) : event V :=
  match e with
  | EInv id t o => EInv (n + id) t o
  | ERet id t r => ERet (n + id) t r
  | EPan id t m => EPan (n + id) t m
  | EAcc id t a => EAcc (n + id) t a
  | EClear => EClear
  | EReserve k m => EReserve k m
  end.
Definition moved {V} (h : list (event V)) (c : cfg V) : cfg V :=
  Cfg (sh c) (map (fun p => (fst p, Call (length h + c_id (snd p)) (c_op (snd p)) (c_prog (snd p)))) (run c))
      (h ++ map (moved_event (length h)) (hist c)) (given c).
Definition moved_step {V} (h : list (event V)) (x : stepped V) : stepped V :=
  match x with Next c => Next (moved h c) | Fault f => Fault f | Disabled => Disabled end.

Section Moved.
  Context {V : Type} (E : env V) (h : list (event V)).
  Lemma moved_lookup t (r : list (nat * call V)) : lookup t (map (fun p => (fst p, Call (length h + c_id (snd p)) (c_op (snd p)) (c_prog (snd p)))) r) =
    match lookup t r with Some x => Some (Call (length h + c_id x) (c_op x) (c_prog x)) | None => None end.
  Proof. induction r as [|[u x] r IH]; [reflexivity|]. simpl. destruct (t =? u); [reflexivity|apply IH]. Qed.
  Lemma moved_remove t (r : list (nat * call V)) : remove t (map (fun p => (fst p, Call (length h + c_id (snd p)) (c_op (snd p)) (c_prog (snd p)))) r) =
    map (fun p : nat * call V => (fst p, Call (length h + c_id (snd p)) (c_op (snd p)) (c_prog (snd p)))) (remove t r).
  Proof. induction r as [|[u x] r IH]; [reflexivity|]. simpl. destruct (t =? u); [reflexivity|]. simpl. now rewrite IH. Qed.
  Lemma moved_one c l : step E (moved h c) l = moved_step h (step E c l).
  Proof.
    assert (A : forall k, h ++ map (moved_event (length h)) (hist c ++ k) = (h ++ map (moved_event (length h)) (hist c)) ++ map (moved_event (length h)) k)
      by (intros k; now rewrite map_app, app_assoc).
    destruct l as [t o|t| |n]; simpl.
    - rewrite moved_lookup. destruct (lookup t (run c)); [reflexivity|]. simpl. destruct (has_grant o (given c)); [|reflexivity].
      simpl. unfold moved. simpl. rewrite A. simpl. rewrite app_length, map_length. reflexivity.
    - unfold step_thread. simpl. rewrite moved_lookup. destruct (lookup t (run c)) as [x|]; [|reflexivity]. simpl.
      destruct (c_prog x) as [r|m|a k|a ag k]; simpl.
      + unfold moved. simpl. rewrite A, moved_remove. reflexivity.
      + unfold moved. simpl. rewrite A, moved_remove. reflexivity.
      + destruct (exec E t a (sh c)) as [y s l|]; [|reflexivity]. simpl. unfold moved, after. simpl. rewrite A, moved_remove, map_map. reflexivity.
      + destruct (exec E t a (sh c)) as [y s l|]; [|reflexivity]. destruct (ag y); [reflexivity|].
        simpl. unfold moved, after. simpl. rewrite A, moved_remove, map_map. reflexivity.
    - destruct (run c) eqn:R; [|reflexivity]. simpl. destruct (clear (sh c)); simpl; try reflexivity.
      unfold moved. simpl. rewrite A. reflexivity.
    - destruct (run c) eqn:R; [|reflexivity]. simpl. destruct (reserve_maximum_capacity E n (sh c)) as [[m s]| |]; simpl; try reflexivity.
      unfold moved. simpl. rewrite A. reflexivity.
  Qed.
  Lemma moved_runs ls : forall c, runs E (moved h c) ls = moved_step h (runs E c ls).
  Proof.
    induction ls as [|l ls IH]; intros c; [reflexivity|]. simpl. rewrite moved_one. destruct (step E c l); [apply IH|reflexivity|reflexivity].
  Qed.
End Moved.

Section Exclusive.
  Context {V : Type} (E : env V) (l0 : list V) (c0 m0 : nat) (c : cfg V).
  Hypothesis X : execution E false false l0 c0 m0 c.
  Notation h := (hist c).
  Notation a0 := (abs0 l0 m0).

  (** C38: when nobody is inside a call, and since the last [clear] no growth call panicked because of
      the maximum capacity or (of [push_for_idx]) in its closure, the length passed on by [into_inner]
      and [clear] is within the allocated storage; if no growth call panicked at all, every one of these
      elements has a value. *)
  Theorem C38_within : at_rest h -> ~ overrun h -> resv (sh c) <= cap (sh c) /\ exists l, into_inner (sh c) = XOk l /\ length l = resv (sh c).
  Proof.
    intros R N. destruct (execution_world _ _ _ _ _ _ c X) as (snap & g & W).
    pose proof (rest_room E false false l0 m0 c snap g (w_gi _ _ _ _ _ _ _ _ W) (rest_run _ _ _ _ _ _ c X R) N) as Q. split; [assumption|].
    unfold into_inner. destruct (Nat.leb_spec (resv (sh c)) (cap (sh c))); [|lia]. eexists. split; [reflexivity|]. now rewrite map_length, seq_length.
  Qed.
  Theorem C38_filled : at_rest h -> no_growth_panic h ->
    resv (sh c) <= cap (sh c) /\ exists vs, into_inner (sh c) = XOk (map Some vs) /\ forall i, nth_error vs i = value (replay a0 h) i.
  Proof.
    intros R N. destruct (C03_to_vec E l0 c0 m0 c X R N) as (vs & T & L & Hv).
    unfold to_vec, into_inner in T. unfold into_inner. destruct (Nat.leb_spec (resv (sh c)) (cap (sh c))); [|discriminate]. split; [assumption|].
    exists vs. split; [|exact Hv]. f_equal.
    destruct (unwrap_all _) as [ws|] eqn:U; [|discriminate]. injection T as ->. clear - U. revert vs U.
    induction (map _ _) as [|[v|] l IH]; simpl; intros vs U; try discriminate; [now injection U as <-|].
    destruct (unwrap_all l) as [ws|]; [|discriminate]. injection U as <-. simpl. now rewrite (IH ws eq_refl).
  Qed.

  (** C30: [clear] is then possible, keeps capacity and maximum capacity, and afterwards the vector
      behaves as a new one with that capacity: every sequence of further steps leads to the same results. *)
  Theorem C30_clear : at_rest h -> ~ overrun h -> exists c', step E c LClear = Next c' /\
    cap (sh c') = cap (sh c) /\ maxc (sh c') = maxc (sh c) /\ to_vec (sh c') = XOk [] /\
    forall ls, runs E c' ls = moved_step (h ++ [EClear]) (runs E (start [] (cap (sh c)) (maxc (sh c))) ls).
  Proof.
    intros R N. destruct (C38_within R N) as [Q _]. exists (moved (h ++ [EClear]) (start [] (cap (sh c)) (maxc (sh c)))). split.
    - simpl. rewrite (rest_run _ _ _ _ _ _ c X R). unfold clear. destruct (Nat.leb_spec (resv (sh c)) (cap (sh c))); [|lia].
      unfold moved. simpl. now rewrite app_nil_r.
    - repeat (split; [reflexivity|]). intros ls; apply (moved_runs E (h ++ [EClear]) ls).
  Qed.

  (** [reserve_maximum_capacity] panics, or changes nothing but the maximum capacity, which does not become less. *)
  Theorem C30_reserve n : at_rest h -> exists c', step E c (LReserve n) = Next c' /\
    (c' = c \/ exists m, hist c' = h ++ [EReserve n m] /\ maxc (sh c') = m /\ maxc (sh c) <= m /\
       cap (sh c') = cap (sh c) /\ resv (sh c') = resv (sh c) /\ slots (sh c') = slots (sh c) /\ given c' = given c /\ run c' = [] /\
       to_vec (sh c') = to_vec (sh c) /\ forall i, a_pos (replay a0 (hist c')) i = a_pos (replay a0 h) i).
  Proof.
    intros R. simpl. rewrite (rest_run _ _ _ _ _ _ c X R). unfold reserve_maximum_capacity.
    destruct (reserve E (cap (sh c)) (maxc (sh c)) n) as [m|] eqn:Rs; [|eexists; split; [reflexivity|auto]].
    eexists. split; [reflexivity|]. right. exists m. simpl. split; [reflexivity|]. split; [reflexivity|]. split.
    - destruct (execution_world _ _ _ _ _ _ c X) as (snap & g & W). destruct X as (Ok & _).
      pose proof (i_cap _ _ _ _ (gi_inv _ _ _ _ _ _ _ _ (w_gi _ _ _ _ _ _ _ _ W))) as Ci. eapply (ok_res E Ok); eauto.
    - repeat (split; [reflexivity|]). intros i. unfold replay. rewrite fold_left_app. reflexivity.
  Qed.
End Exclusive.

(** ** Examples *)

(** C30: a vector is cleared and used again; then its maximum capacity is raised. *)
Definition xc := final [5] (calls 0 (OPush 6) ++ calls 1 (OPush 7)).
Definition xd := final [5] (calls 0 (OPush 6) ++ calls 1 (OPush 7) ++ [Lab LClear] ++ calls 1 (OPush 9) ++ [Lab (LReserve 10)]).
Example C30_example : execution ex false false [5] 2 8 xc /\ at_rest (hist xc) /\ ~ overrun (hist xc) /\ no_growth_panic (hist xc) /\
  to_vec (sh xc) = XOk [5; 6; 7] /\ cap (sh xc) = 4 /\
  execution ex false false [5] 2 8 xd /\ to_vec (sh xd) = XOk [9] /\ cap (sh xd) = 4 /\ maxc (sh xd) = 10.
Proof.
  split; [apply ex_final; vm_compute; reflexivity|]. split; [apply rest_by; vm_compute; reflexivity|].
  split. { intros (h1 & id & t & m & h2 & o & Hh & _). assert (Q : existsb is_pan (hist xc) = true). { rewrite Hh, existsb_app. simpl. apply orb_true_r. }
    revert Q. vm_compute. discriminate. }
  split; [apply no_panics; vm_compute; reflexivity|]. split; [vm_compute; reflexivity|]. split; [vm_compute; reflexivity|].
  split; [apply ex_final; vm_compute; reflexivity|]. vm_compute. auto.
Qed.

(** C38: after a push beyond the maximum capacity has panicked, the length passed on is too large. *)
Definition xo := final [5] (calls 0 (OExtend 7 [Some 1; Some 2; Some 3; Some 4; Some 5; Some 6; Some 7]) ++ calls 1 (OPush 8)).
Theorem C38_refuted : execution ex false false [5] 2 8 xo /\ at_rest (hist xo) /\ cap (sh xo) = 8 /\ resv (sh xo) = 9 /\
  into_inner (sh xo) = XBad FOob /\ to_vec (sh xo) = XBad FOob /\ step ex xo LClear = Fault FOob.
Proof.
  split; [apply ex_final; vm_compute; reflexivity|]. split; [apply rest_by; vm_compute; reflexivity|]. vm_compute. auto 6.
Qed.

Print Assumptions C30_clear.
Print Assumptions C30_reserve.
Print Assumptions C38_within.
Print Assumptions C38_filled.
Print Assumptions C38_refuted.
