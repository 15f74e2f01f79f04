(** * C11, C12, C13: element operations take effect in one instant, values are conserved. *)

From Coq Require Import List Arith Bool Lia Permutation.
From Verif.Model Require Import Prog Mem Deps State Elem Vec Excl Machine.
From Verif Require Import Client Spec Seq.
From Verif.Logic Require Import Inv WP Post Specs Ops Sound Shape Clients Hist Facts Complete Lawful Lin Trace.
From Verif.Properties Require Import Examples.
Import ListNotations.

Section Linear.
  Context {V : Type} (E : env V) (l0 : list V) (c0 m0 : nat) (c : cfg V).
  Hypothesis X : execution E false false l0 c0 m0 c.
  Notation h := (hist c).
  Notation a0 := (abs0 l0 m0).

  (** C11: every execution has a linearization, once the calls that have already taken effect are
      completed by steps of their own ... *)
  Theorem C11_linearizable : exists c' h' lin,
    reach E (client E false false (length l0)) c c' /\ hist c' = h ++ h' /\
    (forall e, In e h' -> match e with EAcc _ _ _ | ERet _ _ _ | EPan _ _ _ => True | _ => False end) /\
    linearization (eqv E) (hist c') lin (value a0) (value (replay a0 (hist c'))).
  Proof.
    destruct (complete E false false l0 c0 m0 c X) as (c' & (R & h' & Hh & Hn) & X' & Dn).
    destruct (execution_expl _ _ _ _ _ _ c' X') as (snap & Ex & _).
    destruct (linearizable E false false l0 m0 snap (hist c') Ex) as (lin & L).
    { intros id t o O At. apply (Dn id t o O). unfold direct. now rewrite At. }
    exists c', h', lin. auto.
  Qed.
  (** ... in particular when nobody is inside a call. *)
  Theorem C11_at_rest : at_rest h -> exists lin, linearization (eqv E) h lin (value a0) (value (replay a0 h)).
  Proof.
    intros R. destruct (execution_expl _ _ _ _ _ _ c X) as (snap & Ex & _).
    apply (linearizable E false false l0 m0 snap h Ex). intros id t o O. destruct (R id t o O).
  Qed.

  (** The instant of a call: between its start and its end; it is the only effect of the call. *)
  Theorem C11_instant id r o x : ended h id r o x -> atomic o = true -> exists k, id < k <= r /\
    sem (eqv E) o x (value (before a0 h k)) (value (before a0 h (S k))) /\
    forall k' t y, nth_error h k' = Some (EAcc id t y) -> is_effect y = true -> k' = k.
  Proof.
    intros En At. destruct (execution_expl _ _ _ _ _ _ c X) as (snap & Ex & _).
    destruct (explained_point _ _ _ _ _ _ _ Ex id r o x En At) as (k & [P1 _ P3 P4]). exists k. auto.
  Qed.

  (** No update is lost: if the element at position [i] is only ever changed by [update] with the same
      closure, its value is the closure applied as often as there were such calls. *)
  Theorem C11_counter i v f : at_rest h -> nth_error l0 i = Some v -> ~ In EClear h ->
    (forall id o old new, called h id o -> replaces o i old new -> o = OElem i (EUpdate f)) ->
    (forall id o j k, called h id o -> exchanges o j k -> j <> i /\ k <> i) ->
    value (replay a0 h) i = Some (times (update_calls i h) (fun u => fst (f u)) v).
  Proof.
    destruct (execution_expl _ _ _ _ _ _ c X) as (snap & Ex & _). apply (counted l0 m0 h (explained_lawful _ _ _ _ _ _ _ Ex)).
    - apply (execution_source E false false l0 c0 m0 c X).
    - intros id r j f' x R. pose proof (explained_inst _ _ _ _ _ _ _ Ex id r _ x R eq_refl) as P. destruct x; [destruct P as (old & _ & Ef & _)|destruct P as (_ & old & Ef & _)]; eauto.
  Qed.

  (** C12: the values that were in the vector or put into it are, with multiplicity, those that are in
      it or were taken out of it; ... *)
  Theorem C12_conserved : Permutation (l0 ++ put_in h) (contents (replay a0 h) ++ taken_out a0 h).
  Proof.
    destruct (execution_expl _ _ _ _ _ _ c X) as (snap & Ex & _).
    pose proof (conserved_at _ _ _ (explained_lawful _ _ _ _ _ _ _ Ex) (length h) (le_n _)) as P. rewrite firstn_all, before_all in P by lia. exact P.
  Qed.
  (** ... each change of the vector is one that the arguments of a call ask for; ... *)
  Theorem C12_source k id t x : nth_error h k = Some (EAcc id t x) -> exists o, called h id o /\ source o x.
  Proof. apply (execution_source E false false l0 c0 m0 c X). Qed.
  (** ... and the value of an element is the last one stored. *)
  Theorem C12_latest k i v : k <= length h -> value (before a0 h k) i = Some v ->
    (nth_error l0 i = Some v /\ forall q e w, q < k -> nth_error h q = Some e -> ~ stores i w e /\ e <> EClear) \/
    exists j e, j < k /\ nth_error h j = Some e /\ stores i v e /\
      forall q e' w, j < q < k -> nth_error h q = Some e' -> ~ stores i w e' /\ e' <> EClear.
  Proof. destruct (execution_expl _ _ _ _ _ _ c X) as (snap & Ex & _). apply (latest _ _ _ (explained_lawful _ _ _ _ _ _ _ Ex)). Qed.

  (** [replace] returns the value it overwrites ([set] drops it); nothing else changes. *)
  Theorem C12_replace id r i v old : returned h id r (OElem i (EReplace v)) (RVal old) ->
    exists k t, id < k < r /\ nth_error h k = Some (EAcc id t (AcWrite i old v)) /\
      value (before a0 h k) i = Some old /\ put i v (value (before a0 h k)) (value (before a0 h (S k))).
  Proof.
    intros R. destruct (execution_expl _ _ _ _ _ _ c X) as (snap & Ex & _).
    destruct (h_returned _ _ _ _ _ _ _ Ex _ _ _ _ R) as (_ & _ & _ & _ & P & _). destruct P as (o & Q & Ef). injection Q as <-.
    destruct R as (t & _ & R). destruct (one_eff _ _ _ _ _ _ _ Ex id r _ _ R (Nat.eqb_refl id) Ef) as (k & u & Hk & Hn & _).
    exists k, u. split; [assumption|]. split; [assumption|]. exact (effect_at _ _ _ (explained_lawful _ _ _ _ _ _ _ Ex) k id u _ Hn eq_refl).
  Qed.
  Theorem C12_set id r i v : returned h id r (OElem i (ESet v)) RUnit ->
    exists k t old, id < k < r /\ nth_error h k = Some (EAcc id t (AcWrite i old v)) /\
      value (before a0 h k) i = Some old /\ put i v (value (before a0 h k)) (value (before a0 h (S k))).
  Proof.
    intros R. destruct (execution_expl _ _ _ _ _ _ c X) as (snap & Ex & _).
    destruct (h_returned _ _ _ _ _ _ _ Ex _ _ _ _ R) as (_ & _ & _ & _ & P & _). destruct P as (old & _ & Ef).
    destruct R as (t & _ & R). destruct (one_eff _ _ _ _ _ _ _ Ex id r _ _ R (Nat.eqb_refl id) Ef) as (k & u & Hk & Hn & _).
    exists k, u, old. split; [assumption|]. split; [assumption|]. exact (effect_at _ _ _ (explained_lawful _ _ _ _ _ _ _ Ex) k id u _ Hn eq_refl).
  Qed.
  (** If the values are all different, no value is given out twice by [replace], and a value given out
      is no longer in the vector. *)
  Theorem C12_unique id r i v id' r' i' v' x : NoDup (l0 ++ put_in h) ->
    returned h id r (OElem i (EReplace v)) (RVal x) ->
    ~ In x (contents (replay a0 h)) /\ (returned h id' r' (OElem i' (EReplace v')) (RVal x) -> id = id').
  Proof.
    intros ND R. pose proof (Permutation_NoDup C12_conserved ND) as ND'.
    destruct (C12_replace id r i v x R) as (k & t & Hk & Hn & _).
    assert (T : forall k t id i v, nth_error h k = Some (EAcc id t (AcWrite i x v)) ->
      taken_out a0 h = taken_out a0 (firstn k h) ++ x :: taken_out (before a0 h (S k)) (skipn (S k) h)).
    { clear. intros k t id i v Hn. rewrite (nth_split_firstn h k _ Hn) at 1. rewrite taken_app. simpl. do 3 f_equal.
      rewrite (before_S a0 h k _ Hn). reflexivity. }
    assert (In x (taken_out a0 h)) by (rewrite (T k t id i v Hn); apply in_elt).
    split.
    - intros Hin. clear - ND' Hin H. induction (contents (replay a0 h)) as [|y l IH]; [destruct Hin|]. simpl in ND'. inversion ND' as [|? ? N ND]; subst.
      destruct Hin as [->|Hin]; [|auto]. apply N. apply in_app_iff. auto.
    - intros R'. destruct (C12_replace id' r' i' v' x R') as (k' & t' & Hk' & Hn' & _).
      assert (NDt : NoDup (taken_out a0 h)) by (clear - ND'; induction (contents (replay a0 h)); [assumption|]; inversion ND'; auto).
      assert (K : forall k k' t t' id id' i i' v v', nth_error h k = Some (EAcc id t (AcWrite i x v)) -> nth_error h k' = Some (EAcc id' t' (AcWrite i' x v')) -> ~ k < k').
      { clear - NDt T. intros k k' t t' id id' i i' v v' H H' L. rewrite (T k t id i v H) in NDt. apply NoDup_remove_2 in NDt. apply NDt.
        apply in_app_iff. right.
        assert (H2 : nth_error (skipn (S k) h) (k' - S k) = Some (EAcc id' t' (AcWrite i' x v'))).
        { rewrite <- H'. replace k' with (S k + (k' - S k)) at 2 by lia. rewrite <- (firstn_skipn (S k) h) at 2.
          pose proof (nth_lt _ _ _ H'). rewrite nth_error_app2; rewrite firstn_length_le by lia; [f_equal; lia|lia]. }
        rewrite (nth_split_firstn _ _ _ H2), taken_app. simpl. apply in_elt. }
      pose proof (K _ _ _ _ _ _ _ _ _ _ Hn Hn'). pose proof (K _ _ _ _ _ _ _ _ _ _ Hn' Hn). assert (k = k') by lia. subst k'. congruence.
  Qed.

  (** C13: when a growth call that was given position [i] has returned, [get_cloned(i)] and
      [get_copied(i)] give a value, ... *)
  Theorem C13_some id r b n i id2 r2 o x : grew h id r b n -> b <= i < b + n ->
    o = OGetCloned i \/ o = OGetCopied i -> returned h id2 r2 o x -> r < id2 -> epoch h r = epoch h id2 ->
    exists v, x = ROptVal (Some v).
  Proof.
    intros G Hi Ho R Hr He. destruct (execution_expl _ _ _ _ _ _ c X) as (snap & Ex & _).
    destruct (grew_has _ _ _ _ _ _ _ Ex id r b n i G Hi) as (v & Hv).
    destruct (h_returned _ _ _ _ _ _ _ Ex _ _ _ _ R) as (H1 & H2 & H3 & _).
    destruct (C11_instant id2 r2 o (Returns x)) as (k & Hk & S & _); [exact R|now destruct Ho; subst o|].
    assert (Hx : Returns x = Returns (ROptVal (value (before a0 h k) i))) by (destruct Ho; subst o; apply S).
    assert (K : exists w, a_pos (before a0 h k) i = Has w).
    { apply (h_has _ _ _ _ _ _ _ Ex r k i v); [lia|lia| |assumption]. rewrite (epoch_between h id2 k r2 H3) by lia. exact He. }
    destruct K as (w & Hw). exists w. injection Hx as ->. unfold value. now rewrite Hw.
  Qed.
  (** ... the pushed one, if position [i] has not been overwritten. *)
  Theorem C13_value id r o b vs j v id2 r2 o2 x : returned h id r o (RNat b) -> grows o = true -> supplies o b vs -> 
    nth_error vs j = Some v -> o2 = OGetCloned (b + j) \/ o2 = OGetCopied (b + j) -> returned h id2 r2 o2 x ->
    r < id2 -> epoch h r = epoch h id2 -> untouched h (b + j) id r2 -> x = ROptVal (Some v).
  Proof.
    intros R Gr Sp Hv Ho R2 Hr He U. destruct (execution_expl _ _ _ _ _ _ c X) as (snap & Ex & _).
    destruct (h_returned _ _ _ _ _ _ _ Ex _ _ _ _ R2) as (H1 & H2 & H3 & _).
    destruct (h_returned _ _ _ _ _ _ _ Ex _ _ _ _ R) as (G1 & G2 & G3 & _).
    destruct (C11_instant id2 r2 o2 (Returns x)) as (k & Hk & S & _); [exact R2|now destruct Ho; subst o2|].
    assert (Hx : Returns x = Returns (ROptVal (value (before a0 h k) (b + j)))) by (destruct Ho; subst o2; apply S).
    assert (K : a_pos (before a0 h k) (b + j) = Has v).
    { apply (grew_value _ _ _ _ _ _ _ Ex id r o b vs j v k R Gr Sp Hv); [lia|lia| |].
      - rewrite (epoch_between h id2 k r2 H3) by lia. congruence.
      - intros q e Hq. apply U. lia. }
    injection Hx as ->. unfold value. now rewrite K.
  Qed.
End Linear.

(** ** Examples *)
Definition inc (v : nat) : nat * bool := (v + 1, true).
Definition ops {V} (h : list (event V)) : list (op V) := flat_map (fun e => match e with EInv _ _ o => [o] | _ => [] end) h.
Lemma called_ops {V} (h : list (event V)) id o : called h id o -> In o (ops h).
Proof. intros (t & H). apply nth_error_In in H. apply in_flat_map. exists (EInv id t o). simpl. auto. Qed.

Lemma no_clears {V} (h : list (event V)) : existsb is_clear h = false -> ~ In EClear h.
Proof. intros H Hin. assert (K : existsb is_clear h = true) by (apply existsb_exists; exists EClear; auto). congruence. Qed.

(** Three threads update the element 0 at the same time. *)
Definition counter_script : list (item nat) :=
  calls 0 (OGet 0) ++ begin 0 (OElem 0 (EUpdate inc)) 1 ++ begin 1 (OElem 0 (EUpdate inc)) 2 ++ begin 2 (OElem 0 (EUpdate inc)) 1 ++
  more 0 1 ++ [Fin 0] ++ more 2 2 ++ more 1 2 ++ [Fin 2; Fin 1].
Notation cs := (final [5] counter_script).
Lemma counter_execution : execution ex false false [5] 2 8 cs.
Proof. apply ex_final. vm_compute. reflexivity. Qed.
Lemma counter_ops : ops (hist cs) = [OGet 0; OElem 0 (EUpdate inc); OElem 0 (EUpdate inc); OElem 0 (EUpdate inc)].
Proof. vm_compute. reflexivity. Qed.
Example counter_example : at_rest (hist cs) /\ ~ In EClear (hist cs) /\ update_calls 0 (hist cs) = 3 /\
  (forall id o old new, called (hist cs) id o -> replaces o 0 old new -> o = OElem 0 (EUpdate inc)) /\
  (forall id o j k, called (hist cs) id o -> exchanges o j k -> j <> 0 /\ k <> 0) /\
  value (replay (abs0 [5] 8) (hist cs)) 0 = Some 8.
Proof.
  split; [apply rest_by; vm_compute; reflexivity|]. split.
  { apply no_clears. vm_compute. reflexivity. }
  split; [vm_compute; reflexivity|]. split; [|split].
  - intros id o old new Hc Hr. apply called_ops in Hc. rewrite counter_ops in Hc. simpl in Hc.
    destruct Hc as [<-|[<-|[<-|[<-|[]]]]]; [destruct Hr|reflexivity..].
  - intros id o j k Hc Hr. apply called_ops in Hc. rewrite counter_ops in Hc. simpl in Hc.
    destruct Hc as [<-|[<-|[<-|[<-|[]]]]]; destruct Hr.
  - vm_compute. reflexivity.
Qed.

(** Values are replaced, swapped and read while the vector grows. *)
Definition linear_script : list (item nat) :=
  calls 0 (OGet 0) ++ begin 0 (OPush 7) 2 ++ begin 1 (OElem 0 (EReplace 9)) 2 ++ begin 2 (OExtend 2 [Some 3; Some 4]) 3 ++
  [Fin 0; Fin 1] ++ calls 0 (OGetCloned 1) ++ [Fin 2] ++ calls 1 (OGetCopied 3) ++ begin 0 (OSwap 0 2) 4 ++ begin 1 (OElem 0 (EReplace 6)) 0 ++
  [Fin 0; Fin 1] ++ calls 2 (OElem 0 (ESet 1)).
Notation ls := (final [5] linear_script).
Lemma linear_execution : execution ex false false [5] 2 8 ls.
Proof. apply ex_final. vm_compute. reflexivity. Qed.
Example linear_example : at_rest (hist ls).
Proof. apply rest_by; vm_compute; reflexivity. Qed.
Lemma untouched_by {V} (h : list (event V)) i j k :
  forallb (fun e => match e with EAcc _ _ (AcWrite q _ _) => negb (q =? i) | EAcc _ _ (AcSwap q r _ _) => negb (q =? i) && negb (r =? i) | _ => true end)
    (firstn (k - j) (skipn j h)) = true -> untouched h i j k.
Proof.
  intros H q e Hq He O. rewrite forallb_forall in H.
  assert (In e (firstn (k - j) (skipn j h))) as Hin.
  { pose proof (nth_lt _ _ _ He). rewrite <- (firstn_skipn j h) in He. rewrite nth_error_app2 in He by (rewrite firstn_length; lia).
    rewrite firstn_length, Nat.min_l in He by lia. rewrite <- (firstn_skipn (k - j) (skipn j h)) in He.
    rewrite nth_error_app1 in He; [now apply nth_error_In in He|]. rewrite firstn_length, skipn_length. lia. }
  apply H in Hin. destruct e as [| | |id t []| |]; simpl in *; try contradiction.
  - subst. rewrite Nat.eqb_refl in Hin. discriminate.
  - destruct O; subst; rewrite Nat.eqb_refl in Hin; rewrite ?andb_false_r in Hin; discriminate.
Qed.
Example linear_example_growth : returned (hist ls) 8 24 (OExtend 2 [Some 3; Some 4]) (RNat 2) /\
  returned (hist ls) 25 30 (OGetCopied 3) (ROptVal (Some 4)) /\ supplies (OExtend 2 [Some 3; Some 4]) 2 [3; 4] /\
  epoch (hist ls) 24 = epoch (hist ls) 25 /\ untouched (hist ls) 3 8 30 /\ grew (hist ls) 8 24 2 2.
Proof.
  split; [exists 2; split; vm_compute; reflexivity|]. split; [exists 1; split; vm_compute; reflexivity|].
  split; [split; reflexivity|]. split; [vm_compute; reflexivity|]. split; [apply untouched_by; vm_compute; reflexivity|].
  exists (OExtend 2 [Some 3; Some 4]). split; [exists 2; split; vm_compute; reflexivity|split; reflexivity].
Qed.
Example linear_example_replace : returned (hist ls) 7 15 (OElem 0 (EReplace 9)) (RVal 5) /\
  returned (hist ls) 34 45 (OElem 0 (EReplace 6)) (RVal 3) /\ returned (hist ls) 46 48 (OElem 0 (ESet 1)) RUnit /\
  NoDup ([5] ++ put_in (hist ls)) /\ taken_out (abs0 [5] 8) (hist ls) = [5; 3; 6] /\ contents (replay (abs0 [5] 8) (hist ls)) = [1; 7; 9; 4].
Proof.
  split; [exists 1; split; vm_compute; reflexivity|]. split; [exists 1; split; vm_compute; reflexivity|].
  split; [exists 2; split; vm_compute; reflexivity|]. split.
  - assert (K : put_in (hist ls) = [7; 9; 3; 4; 6; 1]) by (vm_compute; reflexivity). rewrite K.
    repeat (constructor; [simpl; intros H; repeat (destruct H as [H|H]; [discriminate|]); destruct H|]). constructor.
  - split; vm_compute; reflexivity.
Qed.

Print Assumptions C11_linearizable.
Print Assumptions C11_at_rest.
Print Assumptions C11_instant.
Print Assumptions C11_counter.
Print Assumptions C12_conserved.
Print Assumptions C12_source.
Print Assumptions C12_latest.
Print Assumptions C12_replace.
Print Assumptions C12_set.
Print Assumptions C12_unique.
Print Assumptions C13_some.
Print Assumptions C13_value.
