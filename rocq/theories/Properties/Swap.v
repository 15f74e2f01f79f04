(** * C22, C23: [swap].

    [hspin E]: the handle that [swap] takes on an element waits while another call uses the element; if
    it is [false] it gives up instead ([Model/Mem.v]). *)

From Coq Require Import List Arith Bool Lia.
From Verif.Model Require Import Prog Mem Deps State Elem Vec Excl Machine.
From Verif Require Import Client Spec Seq.
From Verif.Logic Require Import Inv WP Post Specs Ops Sound Shape Clients Hist Locks Facts Complete Lin Stuck.
From Verif.Properties Require Import Examples Linear.
Import ListNotations.

Section Swap.
  Context {V : Type} (E : env V) (l0 : list V) (c0 m0 : nat) (c : cfg V).
  Hypothesis X : execution E false false l0 c0 m0 c.
  Notation h := (hist c).
  Notation a0 := (abs0 l0 m0).

  (** C22: a [swap] that returned [true] exchanged the two values in one instant, between its start and
      its end, and did nothing else; ... *)
  Theorem C22_true id r i j : returned h id r (OSwap i j) (RBool true) -> exists k, id < k < r /\
    exchange i j (value (before a0 h k)) (value (before a0 h (S k))) /\
    forall k' t y, nth_error h k' = Some (EAcc id t y) -> is_effect y = true -> k' = k.
  Proof.
    intros R. destruct (C11_instant E l0 c0 m0 c X id r _ (Returns (RBool true)) R eq_refl) as (k & Hk & S & U).
    simpl in S. destruct S as [[_ S]|[S _]]; [|discriminate]. exists k. split; [|auto].
    destruct (Nat.eq_dec k r) as [->|]; [|lia]. exfalso. destruct S as (_ & v & w & H1 & H2 & H3 & H4 & _).
    destruct (execution_expl _ _ _ _ _ _ c X) as (snap & Ex & _).
    destruct (h_returned _ _ _ _ _ _ _ Ex _ _ _ _ R) as (_ & Hr & _ & _ & P & _). destruct R as (t & R1 & R2).
    destruct P as [(v' & w' & _ & D & Ef & _)|(P & _)]; [|discriminate].
    destruct (one_eff _ _ _ _ _ _ _ Ex id r _ _ R2 (Nat.eqb_refl id) Ef) as (q & u & Hq & Hk' & _).
    pose proof (U q u _ Hk' eq_refl). subst q. congruence.
  Qed.
  (** ... one that returned [false] changed nothing; ... *)
  Theorem C22_false id r i j : returned h id r (OSwap i j) (RBool false) -> only_reads id h.
  Proof.
    intros R. destruct (execution_expl _ _ _ _ _ _ c X) as (snap & Ex & _).
    destruct (h_returned _ _ _ _ _ _ _ Ex _ _ _ _ R) as (_ & Hr & _ & _ & P & _). destruct R as (t & R1 & R2).
    destruct P as [(v' & w' & P & _)|(_ & P & _)]; [discriminate|].
    eapply (eff_nil_reads _ _ _ _ _ _ _ Ex id r); [exact R2|simpl; apply Nat.eqb_refl|]. rewrite P. intros x [].
  Qed.
  (** ... this only happens if one of the positions is not below the length, as found by an earlier call, ... *)
  Theorem C22_bounds id r i j p q n : hspin E = true -> returned h id r (OSwap i j) (RBool false) ->
    saw_len h p q n -> q < id -> epoch h q = epoch h id -> n <= i \/ n <= j.
  Proof.
    intros Hs R (o & v & R' & S) H He. destruct (execution_expl _ _ _ _ _ _ c X) as (snap & Ex & _).
    destruct (h_returned _ _ _ _ _ _ _ Ex _ _ _ _ R) as (Hi & Hr & _ & _ & P & _).
    destruct (h_returned _ _ _ _ _ _ _ Ex _ _ _ _ R') as (_ & Hr' & _ & _ & P' & _).
    destruct (shows_lenres E _ _ _ _ _ _ P' S) as [[_ L'] _].
    pose proof (mo_wrtn _ _ (h_mono _ _ _ _ _ _ _ Ex q id ltac:(lia) ltac:(lia) ltac:(congruence))).
    destruct P as [(v' & w' & P & _)|(_ & _ & [(m & [[L _] _] & P)|(P & _)])]; [discriminate|lia|congruence].
  Qed.
  (** ... or if one of the positions up to the larger one has no value when the call starts, or is used by
      another call during the call (then the length found may be too small, C09). *)
  Theorem C22_available id r i j : returned h id r (OSwap i j) (RBool false) -> i <> j ->
    (forall q, q <= i \/ q <= j -> exists v, value (before a0 h id) q = Some v) ->
    exists q k, (q <= i \/ q <= j) /\ id < k < r /\ busy h id q k.
  Proof.
    intros R D F. destruct (execution_expl _ _ _ _ _ _ c X) as (snap & Ex & _).
    destruct (execution_holds _ _ _ _ _ _ c X) as (_ & _ & LE).
    destruct (h_returned _ _ _ _ _ _ _ Ex _ _ _ _ R) as (Hi & Hr & _ & _ & P & _). destruct R as (t & R1 & R2).
    assert (Ns : self_swap (@OSwap V i j) = false) by (simpl; now apply Nat.eqb_neq).
    destruct P as [(v' & w' & P & _)|(_ & _ & [(m & L & P)|(Hs & P)])]; [discriminate| |].
    - destruct (F m) as (v & Hv); [lia|].
      assert (Ha : a_pos (before a0 h id) m = Has v) by (unfold value in Hv; destruct (a_pos (before a0 h id) m); simpl in Hv; congruence).
      destruct (len_miss E false false l0 m0 snap h Ex LE id t _ r _ m v R1 Ns R2 (Nat.eqb_refl id) L Ha) as (k & Hk & B).
      exists m, k. split; [lia|auto].
    - assert (forall q, In (AcSt q RESERVED) (accs id (firstn r h)) -> exists k, id < k < r /\ busy h id q k) as K.
      { intros q Hq. destruct (in_accs _ _ _ _ _ _ _ Ex id r _ _ Hq R2 (Nat.eqb_refl id)) as (k & u & Hk & Hx & _).
        exists k. split; [assumption|]. destruct (h_acc _ _ _ _ _ _ _ Ex _ _ _ _ Hx) as (o' & _ & Ho & _).
        assert (u = t) by congruence. subst u. exact (h_lock _ _ _ _ _ _ _ Ex LE k id t q _ Hx R1 Ns). }
      destruct P as [P|P]; destruct (K _ P) as (k & Hk & B); eauto 6.
  Qed.

  (** The same for slices, whose positions are below the length of the vector. *)
  Theorem C22_slice_true id r x i j : returned h id r (OSl x (SSwap i j)) (RBool true) ->
    i < sl_len x /\ j < sl_len x /\ exists k, id < k <= r /\
    exchange (sl_a x + i) (sl_a x + j) (value (before a0 h k)) (value (before a0 h (S k))) /\
    forall k' t y, nth_error h k' = Some (EAcc id t y) -> is_effect y = true -> k' = k.
  Proof.
    intros R. destruct (C11_instant E l0 c0 m0 c X id r _ (Returns (RBool true)) R eq_refl) as (k & Hk & S & U).
    simpl in S. destruct (Nat.ltb_spec i (sl_len x)), (Nat.ltb_spec j (sl_len x)); simpl in S; try (destruct S; discriminate).
    destruct S as [[_ S]|[S _]]; [|discriminate]. split; [assumption|]. split; [assumption|]. exists k. auto.
  Qed.
  Theorem C22_slice_false id r x i j : returned h id r (OSl x (SSwap i j)) (RBool false) ->
    only_reads id h /\ (hspin E = true -> sl_len x <= i \/ sl_len x <= j).
  Proof.
    intros R. destruct (execution_expl _ _ _ _ _ _ c X) as (snap & Ex & _).
    destruct (h_returned _ _ _ _ _ _ _ Ex _ _ _ _ R) as (_ & Hr & _ & _ & P & _). destruct R as (t & R1 & R2).
    destruct (h_ev _ _ _ _ _ _ _ Ex id _ R1) as (_ & _ & G & _). destruct (G _ eq_refl) as (Gw & _).
    destruct P as [(Hi & Hj & [(v' & w' & P & _)|(_ & P & D)])|(P & _ & Ef)]; [discriminate| |].
    - split; [|intros Hs; destruct D as [(n & [[L _] _] & D)|(D & _)]; [lia|congruence]].
      eapply (eff_nil_reads _ _ _ _ _ _ _ Ex id r); [exact R2|simpl; apply Nat.eqb_refl|]. rewrite P. intros y [].
    - split; [|auto]. eapply (eff_nil_reads _ _ _ _ _ _ _ Ex id r); [exact R2|simpl; apply Nat.eqb_refl|]. rewrite Ef. intros y [].
  Qed.

  (** C23: [swap(i,i)] never returns [true], ... *)
  Theorem C23_self id r i v : returned h id r (OSwap i i) v -> v = RBool false.
  Proof.
    intros R. destruct (execution_expl _ _ _ _ _ _ c X) as (snap & Ex & _).
    destruct (h_returned _ _ _ _ _ _ _ Ex _ _ _ _ R) as (_ & _ & _ & _ & P & _).
    destruct P as [(v' & w' & _ & D & _)|(P & _)]; [congruence|assumption].
  Qed.
  (** ... and if the handle waits and [i] is in bounds it never returns at all. *)
  Theorem C23_self_refuted id i p q n : hspin E = true -> called h id (OSwap i i) ->
    saw_len h p q n -> i < n -> q < id -> epoch h q = epoch h id ->
    exists t, open h id t (OSwap i i).
  Proof.
    intros Hs (t & C) S Hi Hq He. exists t. split; [assumption|].
    destruct (existsb (is_end id) h) eqn:En; [|reflexivity]. exfalso.
    apply existsb_exists in En. destruct En as (e & Hin & En). apply in_nth in Hin. destruct Hin as (r & Hr).
    destruct (execution_expl _ _ _ _ _ _ c X) as (snap & Ex & _).
    destruct e as [|id' w v|id' w m| | |]; try discriminate; simpl in En; apply Nat.eqb_eq in En; subst id'.
    - destruct (h_ret _ _ _ _ _ _ _ Ex r id w v Hr) as (o & _ & Ho & _). assert (w = t) by congruence. subst w.
      assert (R : returned h id r (OSwap i i) v) by (exists t; auto). pose proof (C23_self id r i v R). subst v.
      destruct (C22_bounds id r i i p q n Hs R S Hq He); lia.
    - destruct (h_pan _ _ _ _ _ _ _ Ex r id w m Hr) as (o & _ & Ho & _ & _ & P). rewrite C in Ho. injection Ho as _ <-. exact P.
  Qed.
End Swap.

(** A vector with two elements that are swapped; then a slice of it. *)
Definition sw_script : list (item nat) :=
  calls 0 (OPush 7) ++ calls 1 OLen ++ calls 1 (OSwap 0 1) ++ calls 0 (OSwap 0 9) ++
  calls 1 (OSlice (rng 0 2)) ++ calls 1 (OSl (CSlice 0 2) (SSwap 1 0)) ++ calls 1 (OSl (CSlice 0 2) (SSwap 1 2)) ++
  begin 2 (OSwap 1 1) 30.
Definition sw := final [5] sw_script.
Example swap_execution : execution ex false false [5] 2 8 sw.
Proof. apply ex_final. vm_compute. reflexivity. Qed.

(** C23: two calls that swap the same two positions in opposite orders wait for each other: there is an
    execution with two such calls, none of which ends in any continuation. *)
Definition dl_script : list (item nat) :=
  calls 0 (OPush 7) ++ begin 1 (OSwap 0 1) 8 ++ begin 2 (OSwap 1 0) 20 ++ more 1 20.
Definition dl := final [5] dl_script.
Theorem C23_deadlock_refuted : execution ex false false [5] 2 8 dl /\
  called (hist dl) 5 (OSwap 0 1) /\ called (hist dl) 10 (OSwap 1 0) /\
  forall c', reach ex (client ex false false 1) dl c' ->
    open (hist c') 5 1 (OSwap 0 1) /\ open (hist c') 10 2 (OSwap 1 0).
Proof.
  assert (X : execution ex false false [5] 2 8 dl) by (apply ex_final; vm_compute; reflexivity).
  assert (W := all_waits dl ltac:(vm_compute; reflexivity)).
  split; [exact X|]. split; [exists 1; vm_compute; reflexivity|]. split; [exists 2; vm_compute; reflexivity|].
  intros c' R. split.
  - destruct (lookup 1 (run dl)) as [x|] eqn:Lk; [|exfalso; vm_compute in Lk; discriminate].
    assert (I : c_id x = 5 /\ c_op x = OSwap 0 1) by (vm_compute in Lk; injection Lk as <-; split; reflexivity).
    destruct I as [I1 I2]. rewrite <- I1, <- I2. exact (jam_open ex false false [5] 2 8 dl c' 1 x X W R Lk).
  - destruct (lookup 2 (run dl)) as [x|] eqn:Lk; [|exfalso; vm_compute in Lk; discriminate].
    assert (I : c_id x = 10 /\ c_op x = OSwap 1 0) by (vm_compute in Lk; injection Lk as <-; split; reflexivity).
    destruct I as [I1 I2]. rewrite <- I1, <- I2. exact (jam_open ex false false [5] 2 8 dl c' 2 x X W R Lk).
Qed.

Example swap_example : returned (hist sw) 10 18 (OSwap 0 1) (RBool true) /\
  returned (hist sw) 19 25 (OSwap 0 9) (RBool false) /\ saw_len (hist sw) 5 9 2 /\ epoch (hist sw) 9 = epoch (hist sw) 19 /\
  returned (hist sw) 30 38 (OSl (CSlice 0 2) (SSwap 1 0)) (RBool true) /\
  returned (hist sw) 39 40 (OSl (CSlice 0 2) (SSwap 1 2)) (RBool false) /\
  called (hist sw) 41 (OSwap 1 1) /\ epoch (hist sw) 9 = epoch (hist sw) 41 /\ hspin ex = true.
Proof.
  split; [exists 1; split; vm_compute; reflexivity|]. split; [exists 0; split; vm_compute; reflexivity|].
  split; [exists OLen, (RNat 2); split; [exists 1; split|]; vm_compute; reflexivity|]. split; [vm_compute; reflexivity|].
  split; [exists 1; split; vm_compute; reflexivity|]. split; [exists 1; split; vm_compute; reflexivity|].
  split; [exists 2; vm_compute; reflexivity|]. split; vm_compute; reflexivity.
Qed.
(** [swap(0,1)] returns [false] although both positions have values, while the second one is read. *)
Definition sw2 := final [5] (calls 0 (OPush 7) ++ begin 1 (OGetCloned 1) 5 ++ calls 2 (OSwap 0 1) ++ [Fin 1]).
Example swap_execution2 : execution ex false false [5] 2 8 sw2.
Proof. apply ex_final. vm_compute. reflexivity. Qed.
Example swap_example_busy : exists id r, returned (hist sw2) id r (OSwap 0 1) (RBool false) /\
  forall q, q <= 0 \/ q <= 1 -> exists v, value (before (abs0 [5] 8) (hist sw2) id) q = Some v.
Proof.
  exists 9, 17. split; [exists 2; split; vm_compute; reflexivity|].
  intros [|[|q]] H; try lia; eexists; vm_compute; reflexivity.
Qed.

Print Assumptions C22_true.
Print Assumptions C22_false.
Print Assumptions C22_bounds.
Print Assumptions C22_available.
Print Assumptions C22_slice_true.
Print Assumptions C22_slice_false.
Print Assumptions C23_self.
Print Assumptions C23_self_refuted.
Print Assumptions C23_deadlock_refuted.
