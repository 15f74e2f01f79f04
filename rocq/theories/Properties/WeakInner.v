(** * C53: what the calls made inside closures wait for, and when they end, under release/acquire.

    [RA/WWaits.v] has the vocabulary: a call [qwaits] if its next step is a round of a busy-wait even though
    it reads the newest message. *)

From Coq Require Import List Arith Bool Lia.
From Verif.Model Require Import Prog Mem Deps State Elem Vec Excl Machine Reentrant.
From Verif Require Import Client Spec Nested.
From Verif.Logic Require Import Nesting.
From Verif.RA Require Import Weak WTrace WReentrant WInv WLent WWaits WDead.
From Verif.Properties Require Import C33 Examples WeakReentrant.
Import ListNotations.

Section Inner.
  Context {V : Type} (E : env V) (ro : bool) (l0 : list V) (c0 m0 : nat).
  Implicit Types (q : qcfg V).
  Notation qexec := (qexecution E ro l0 c0 m0).

  (** A call that waits, waits (a) for an element that was lent to a closure it is inside of, or that a call of another
      thread uses: the innermost one, or one that lends it to its closure; or (b) for room at positions beyond the
      capacity while the first of these belongs to the innermost call of another thread, or to a [push_for_idx]
      whose closure is running, maybe the one it is inside of; or (c) that position was reserved by a growth
      call that panicked without having made room; or (d) it is [swap(i,i)].  If an innermost call of another
      thread that is waited for waits itself, it is a [swap]. *)
  Theorem C53_waits q t : qexec q -> qwaits E q t -> exists fr d, runs q t d fr /\ on_top q t d /\
    ((exists i, rtouches (k_op fr) i /\ qstate q i = RESERVED /\
        (has_lent (q_hist q) (k_id fr) i \/
         exists t' d' fr', t' <> t /\ runs q t' d' fr' /\ lively E q t' d' fr' /\ rtouches (k_op fr') i /\
           (busy q t' d' \/ lends (k_op fr') (length (values_read (q_hist q) (k_id fr'))) = Some i))) \/
     (rgrows (k_op fr) = true /\ exists b, qreserved q (k_num fr) b (asks (k_op fr)) /\ qcapacity q < b /\
        ((exists t' d' fr' b', runs q t' d' fr' /\ (t' <> t -> on_top q t' d' -> ~ qwaits E q t') /\ rgrows (k_op fr') = true /\ qreserved q (k_num fr') b' (asks (k_op fr')) /\ b' <= qcapacity q < b' + asks (k_op fr') /\
            (t' <> t /\ busy q t' d' \/
             k_op fr' = RPushFor /\ (t' = t -> inside (q_hist q) (k_id fr) (k_id fr') RPushFor))) \/
         (exists num id o m b' n, In (num, id, o, m) (q_panics q) /\ overran (with_answers (fun _ => None) o) m /\ qreserved q num b' n /\ b' <= qcapacity q < b' + n))) \/
     (exists o1, k_op fr = RPlain o1 /\ self_swap o1 = true /\ hspin E = true)).
  Proof. apply q_waits_on. Qed.

  (** A call made inside closures ends when its thread goes on reading the newest messages and no other thread has
      calls, if it uses no element that was lent to one of these closures; a growth call, if besides no growth call has
      panicked since the last [clear] without having made room and there is room for the positions of the
      [push_for_idx] calls it is inside of. *)
  Theorem C53_ends q t fr rest o : qexec q -> stack t (q_run q) = fr :: rest -> k_op fr = RPlain o ->
    (forall t', t' <> t -> stack t' (q_run q) = []) -> self_swap o && hspin E = false -> (forall i, touches o i -> ~ has_lent (q_hist q) (k_id fr) i) ->
    (grows o = false \/
     (forall num id o' m, In (num, id, o', m) (q_panics q) -> ~ overran (with_answers (fun _ => None) o') m) /\
     forall d fr', d < length rest -> runs q t d fr' -> k_op fr' = RPushFor -> forall b, qreserved q (k_num fr') b 1 -> b < qcapacity q) ->
    exists q', qalone E t q q' /\ stack t (q_run q') = rest /\ rdone (q_hist q') (k_id fr) = true.
  Proof. intros X St Ho. exact (q_ends E ro l0 c0 m0 (k_prog fr) q t fr rest o X St eq_refl Ho). Qed.

  (** A closure of [push_for_idx] whose call has to make the room it writes to: the growth calls made in it that got a
      position beyond the capacity never return. *)
  Theorem C53_push_for q q' t d fr d1 fr1 b : qexec q -> runs q t d fr -> runs q t d1 fr1 -> d1 < d -> qreserved q (k_num fr1) (qcapacity q) 1 ->
    rgrows (k_op fr) = true -> 0 < asks (k_op fr) -> qreserved q (k_num fr) b (asks (k_op fr)) -> qcapacity q < b + asks (k_op fr) ->
    qreach E (qclient E ro) q q' -> forall t' d' v, ~ In (NRet (k_id fr) t' d' v) (q_hist q').
  Proof. apply q_hangs. Qed.
End Inner.

Section Lent.
  Context {V : Type} (E : env V) (l0 : list V) (c0 m0 : nat).
  Implicit Types (q : qcfg V).
  Notation qexec := (qexecution E false l0 c0 m0).

  (** Without the unsafe methods, the value lent to a closure is accessed by nobody while the closure is inside a call:
      not by another thread, not by the calls the closure makes. *)
  Theorem C53_exclusive q id i k j t d x : qexec q -> has_lent (q_hist q) id i -> id < k ->
    rdone (firstn k (q_hist q)) id = false -> nth_error (q_hist q) k = Some (NAcc j t d x) -> ~ on_elem i x.
  Proof. apply w_exclusive. Qed.

  (** Deadlock.  Every call of the set [A] needs the value of an element that was lent to a closure which is
      itself inside a call of [A]: then none of these calls ever ends, whatever happens and whatever is read. *)
  Definition qblocked (h : list (revent V)) (A : nat -> Prop) : Prop :=
    forall id, A id -> exists t d o i id', ropen h id t d o /\ A id' /\ has_lent h id' i /\ uses o i /\
      (forall k t' d' x, nth_error h k = Some (NAcc id t' d' x) -> ~ on_elem i x).
  Lemma qexec_trans q q' : qexec q -> qreach E (qclient E false) q q' -> qexec q' /\ exists h, q_hist q' = q_hist q ++ h.
  Proof.
    intros X R. induction R as [|q1 l q2 R IH C S]; [split; [assumption|exists []; now rewrite app_nil_r]|].
    destruct IH as (X1 & h & H). split; [eapply qexecution_step; eauto|]. destruct (qhist_grows _ _ _ _ S) as [H'|(e & H')]; rewrite H', H; [eauto|].
    exists (h ++ [e]). now rewrite app_assoc.
  Qed.
  Theorem C53_deadlock q A q' id : qexec q -> qblocked (q_hist q) A -> qreach E (qclient E false) q q' -> A id -> rdone (q_hist q') id = false.
  Proof.
    intros X B R. revert id. induction R as [|q1 l q2 R IH C S]; intros id Aid.
    - destruct (B id Aid) as (t & d & o & i & id' & (_ & D) & _). exact D.
    - destruct (qexec_trans _ _ X R) as (X1 & h1 & H1). assert (X2 : qexec q2) by (eapply qexecution_step; eauto).
      destruct (qhist_grows _ _ _ _ S) as [Hh|(e & Hh)]; [rewrite Hh; auto|].
      destruct (rdone (q_hist q2) id) eqn:D; [exfalso|reflexivity]. pose proof D as D2. rewrite Hh, rdone_snoc, (IH id Aid) in D. simpl in D.
      destruct (B id Aid) as (t & d & o & i & id' & (Hi & _) & Aid' & Hl & U & No).
      assert (L' : id' < length (q_hist q)). { destruct Hl as (id1 & o1 & (t1 & d1 & d2 & o2 & _ & _ & I) & _). apply nth_error_Some. congruence. }
      assert (Hl2 : has_lent (q_hist q2) id' i).
      { destruct Hl as (id1 & o1 & (t1 & d1 & d2 & o2 & Ld & O & I) & Le).
        assert (F : firstn id' (q_hist q2) = firstn id' (q_hist q)).
        { rewrite Hh, H1, !firstn_app, app_length. replace (id' - length (q_hist q)) with 0 by lia.
          replace (id' - (length (q_hist q) + length h1)) with 0 by lia. simpl. now rewrite !app_nil_r. }
        exists id1, o1. rewrite F. split; [|assumption]. exists t1, d1, d2, o2. rewrite F. split; [assumption|]. split; [assumption|]. rewrite Hh, H1. now do 2 apply nth_old. }
      assert (Hi2 : nth_error (q_hist q2) id = Some (NInv id t d o)) by (rewrite Hh, H1; now do 2 apply nth_old).
      destruct (w_must_use E false l0 c0 m0 q2 id t d o i X2 Hi2 D2 U) as (k & t' & d' & x & Hk & On).
      pose proof Hk as Hk2. rewrite Hh in Hk. apply nth_new in Hk as [Hk|[_ <-]]; [|discriminate].
      assert (Lk : k < length (q_hist q1)) by (apply nth_error_Some; congruence).
      pose proof Hk as Hk1. rewrite H1 in Hk1. destruct (Nat.lt_ge_cases k (length (q_hist q))) as [L|L].
      + rewrite nth_error_app1 in Hk1 by assumption. exact (No k t' d' x Hk1 On).
      + refine (C53_exclusive q2 id' i k id t' d' x X2 Hl2 _ _ Hk2 On); [lia|]. apply (rdone_firstn _ k (length (q_hist q1))); [lia|].
        rewrite Hh, firstn_app, Nat.sub_diag, firstn_all. simpl. rewrite app_nil_r. auto.
  Qed.
  (** In particular, a closure that calls for the element it was lent. *)
  Theorem C53_self_deadlock q id t d o i : qexec q -> nth_error (q_hist q) id = Some (NInv id t d o) -> has_lent (q_hist q) id i -> uses o i -> rdone (q_hist q) id = false.
  Proof.
    intros X Hi Hl U. destruct (rdone (q_hist q) id) eqn:D; [exfalso|reflexivity].
    destruct (w_must_use E false l0 c0 m0 q id t d o i X Hi D U) as (k & t' & d' & x & Hk & On). destruct (w_within E l0 c0 m0 q id k t' d' x X Hk) as [Lk O].
    exact (C53_exclusive q id i k id t' d' x X Hl Lk O Hk On).
  Qed.
End Lent.

(** ** Examples *)
(** the next [n] steps of thread 0 after [s], which read the newest messages *)
Fixpoint onward (n : nat) (s : list qitem) : list qitem :=
  match n with 0 => s | S k => onward k (s ++ [QLab (QStep 0 (qfresh (qfinal false [5; 6] s) 0))]) end.
Definition rounds (q : qcfg nat) (t : nat) : bool :=
  match stack t (q_run q) with
  | fr :: rest => match k_prog fr with
                  | RSpin a ag _ => match wexec ex (k_num fr) a (qfront q t) (q_mem q) (q_view q (agent t (length rest))) with WDone y _ _ => ag y | _ => false end
                  | _ => false
                  end
  | [] => false
  end.
Lemma rounds_wait q t : rounds q t = true -> qwaits ex q t.
Proof.
  unfold rounds, qwaits. cbv beta iota zeta delta [qstep]. destruct (stack t (q_run q)) as [|fr rest]; [discriminate|].
  destruct (k_prog fr) as [v|m|a k|a ag k|k]; try discriminate. destruct (wexec _ _ _ _ _ _) as [y M tv|f|]; try discriminate. intros ->. reflexivity.
Qed.

(** [vec.push_for_idx(|_| { vec.push(7); 8 })] on a full vector: the outer call would have to make room for both values,
    the inner one waits for it. *)
Definition qfull : list qitem := onward 4 (qcalls 0 RPushFor 0 ++ [QLab (QInv 0 (RPlain (OPush 7)) 0)]).
(** [e0.map(|_| { e0.set(9); .. })]: an element is used inside its own closure. *)
Definition qself : list qitem := onward 4 (qcalls 0 (RPlain (OGet 0)) 0 ++ qcalls 0 (RElemMap 0) 0 ++ [QLab (QInv 0 (RPlain (OElem 0 (ESet 9))) 0)]).
Example C53_waits_example :
  qexecution ex false [5; 6] 2 8 (qfinal false [5; 6] qfull) /\ qwaits ex (qfinal false [5; 6] qfull) 0 /\
  qexecution ex false [5; 6] 2 8 (qfinal false [5; 6] qself) /\ qwaits ex (qfinal false [5; 6] qself) 0.
Proof.
  split; [apply qex_final; vm_compute; reflexivity|]. split; [apply rounds_wait; vm_compute; reflexivity|].
  split; [apply qex_final; vm_compute; reflexivity|apply rounds_wait; vm_compute; reflexivity].
Qed.

Definition labels (q : qcfg nat) (t : nat) : list (nat * nat * rop nat) := map (fun fr => (k_num fr, k_id fr, k_op fr)) (stack t (q_run q)).
Lemma two_frames q t n2 i2 o2 n1 i1 o1 : labels q t = [(n2, i2, o2); (n1, i1, o1)] -> exists fr2 fr1, stack t (q_run q) = [fr2; fr1] /\
  k_num fr2 = n2 /\ k_id fr2 = i2 /\ k_op fr2 = o2 /\ k_num fr1 = n1 /\ k_id fr1 = i1 /\ k_op fr1 = o1.
Proof.
  unfold labels. destruct (stack t (q_run q)) as [|a [|b [|c l]]]; try discriminate. cbn [map]. intros [= <- <- <- <- <- <-]. exists a, b. auto 8.
Qed.
Lemma reserves (q : qcfg nat) num b n : existsb (fun k => match nth_error (m_resv (q_mem q)) (k - 1), nth_error (m_resv (q_mem q)) k with
    | Some m, Some m' => (0 <? k) && (mby m' =? num) && (mval m =? b) && (mval m' =? b + n) | _, _ => false end) (seq 0 (length (m_resv (q_mem q)))) = true ->
  qreserved q num b n.
Proof.
  intros H. apply existsb_exists in H as (k & _ & H). destruct (nth_error _ (k - 1)) as [m|] eqn:Q1; [|discriminate]. destruct (nth_error _ k) as [m'|] eqn:Q2; [|discriminate].
  rewrite !andb_true_iff, Nat.ltb_lt, !Nat.eqb_eq in H. destruct H as (((L & A) & B) & D). destruct k as [|k]; [lia|]. replace (S k - 1) with k in Q1 by lia.
  unfold qreserved. eauto 10.
Qed.
Example C53_push_for_example : qexecution ex false [5; 6] 2 8 (qfinal false [5; 6] qfull) /\ exists fr fr1,
  runs (qfinal false [5; 6] qfull) 0 1 fr /\ runs (qfinal false [5; 6] qfull) 0 0 fr1 /\ qreserved (qfinal false [5; 6] qfull) (k_num fr1) (qcapacity (qfinal false [5; 6] qfull)) 1 /\
  k_op fr = RPlain (OPush 7) /\ qreserved (qfinal false [5; 6] qfull) (k_num fr) 3 (asks (k_op fr)) /\ qcapacity (qfinal false [5; 6] qfull) = 2.
Proof.
  split; [apply qex_final; vm_compute; reflexivity|].
  assert (L : labels (qfinal false [5; 6] qfull) 0 = [(2, 2, RPlain (OPush 7)); (1, 0, RPushFor)]) by (vm_compute; reflexivity).
  assert (C : qcapacity (qfinal false [5; 6] qfull) = 2) by (vm_compute; reflexivity).
  assert (R1 : qreserved (qfinal false [5; 6] qfull) 1 2 1) by (apply reserves; vm_compute; reflexivity).
  assert (R2 : qreserved (qfinal false [5; 6] qfull) 2 3 1) by (apply reserves; vm_compute; reflexivity).
  generalize dependent (qfinal false [5; 6] qfull). intros q L C R1 R2. destruct (two_frames _ _ _ _ _ _ _ _ L) as (f2 & f1 & St & N2 & _ & O2 & N1 & _).
  exists f2, f1. unfold runs. rewrite St, N1, N2, O2, C. auto 8.
Qed.

(** [e0.map(|_| { vec.push(7); .. })]: the first element is locked, the vector has no room left; the call of [push] ends. *)
Definition qroom : list qitem := qcalls 0 (RPlain (OGet 0)) 0 ++ qcalls 0 (RElemMap 0) 0 ++ [QLab (QInv 0 (RPlain (OPush 7)) 0)].
Example C53_ends_example : qexecution ex false [5; 6] 2 8 (qfinal false [5; 6] qroom) /\ exists fr rest,
  stack 0 (q_run (qfinal false [5; 6] qroom)) = fr :: rest /\ length rest = 1 /\ k_op fr = RPlain (OPush 7) /\
  (forall t', t' <> 0 -> stack t' (q_run (qfinal false [5; 6] qroom)) = []) /\
  has_lent (q_hist (qfinal false [5; 6] qroom)) (k_id fr) 0 /\ (forall i, ~ touches (V := nat) (OPush 7) i) /\ q_panics (qfinal false [5; 6] qroom) = [] /\
  (forall d fr', d < length rest -> runs (qfinal false [5; 6] qroom) 0 d fr' -> k_op fr' <> RPushFor).
Proof.
  split; [apply qex_final; vm_compute; reflexivity|].
  assert (L : labels (qfinal false [5; 6] qroom) 0 = [(3, 3, RPlain (OPush 7)); (2, 2, RElemMap 0)]) by (vm_compute; reflexivity).
  assert (Ru : map fst (q_run (qfinal false [5; 6] qroom)) = [0]) by (vm_compute; reflexivity).
  assert (P : q_panics (qfinal false [5; 6] qroom) = []) by (vm_compute; reflexivity).
  assert (Hl : has_lent (q_hist (qfinal false [5; 6] qroom)) 3 0).
  { exists 2, (RElemMap 0). split; [|vm_compute; reflexivity]. exists 0, 0, 1, (RPlain (OPush 7)). split; [lia|]. split; [split|]; vm_compute; reflexivity. }
  generalize dependent (qfinal false [5; 6] qroom). intros q L Ru P Hl. destruct (two_frames _ _ _ _ _ _ _ _ L) as (f2 & f1 & St & N2 & I2 & O2 & N1 & _ & O1).
  exists f2, [f1]. split; [assumption|]. split; [reflexivity|]. split; [assumption|]. split.
  - intros t' Nt. unfold stack. destruct (q_run q) as [|[u s] [|? ?]]; try discriminate. injection Ru as ->. simpl. destruct (Nat.eqb_spec t' 0); [contradiction|reflexivity].
  - rewrite I2. split; [assumption|]. split; [simpl; auto|]. split; [assumption|]. intros d fr' Ld. unfold runs. rewrite St. assert (d = 0) as -> by (simpl in Ld; lia).
    cbn. intros [= <-]. rewrite O1. discriminate.
Qed.

(** Call 17 of [C47_flat_example] is made inside two closures that have the first and the second element. *)
Example C53_exclusive_example : qexecution ex false [5; 6] 2 8 qend /\ has_lent (q_hist qend) 17 0 /\ has_lent (q_hist qend) 17 1 /\
  rdone (firstn 18 (q_hist qend)) 17 = false /\ nth_error (q_hist qend) 18 = Some (NAcc 17 0 2 (AcRead 3 8)).
Proof.
  split; [exact qnested_run|]. split; [exists 4, (RElemMap 0); split; [apply qnested_inside|vm_compute; reflexivity]|].
  split; [exists 9, (RElemUpdate 1); split; [apply qnested_inside|vm_compute; reflexivity]|]. split; vm_compute; reflexivity.
Qed.
Example C53_self_deadlock_example : qexecution ex false [5; 6] 2 8 (qfinal false [5; 6] qself) /\ has_lent (q_hist (qfinal false [5; 6] qself)) 3 0 /\
  nth_error (q_hist (qfinal false [5; 6] qself)) 3 = Some (NInv 3 0 1 (RPlain (OElem 0 (ESet 9)))) /\ uses (RPlain (V := nat) (OElem 0 (ESet 9))) 0.
Proof.
  split; [apply qex_final; vm_compute; reflexivity|]. split; [|split; [vm_compute; reflexivity|reflexivity]].
  exists 2, (RElemMap 0). split; [|vm_compute; reflexivity]. exists 0, 0, 1. eexists. split; [lia|]. split; [split|]; vm_compute; reflexivity.
Qed.
(** [e0.map(|_| e1.set(7))] and [e1.map(|_| e0.set(8))] in two threads: each closure waits for the other. *)
Definition qcross : list qitem :=
  qcalls 0 (RPlain (OGet 0)) 0 ++ qcalls 0 (RPlain (OGet 1)) 0 ++ qcalls 0 (RElemMap 0) 0 ++ qcalls 1 (RElemMap 1) 1 ++
  [QLab (QInv 0 (RPlain (OElem 1 (ESet 7))) 1); QLab (QInv 1 (RPlain (OElem 0 (ESet 8))) 0)].
Example C53_deadlock_example : qexecution ex false [5; 6] 2 8 (qfinal false [5; 6] qcross) /\ qblocked (q_hist (qfinal false [5; 6] qcross)) (fun id => id = 6 \/ id = 7).
Proof.
  split; [apply qex_final; vm_compute; reflexivity|].
  assert (H : q_hist (qfinal false [5; 6] qcross) =
    [NInv 0 0 0 (RPlain (OGet 0)); NRet 0 0 0 (ROptElem (Some 0)); NInv 2 0 0 (RPlain (OGet 1)); NRet 2 0 0 (ROptElem (Some 1));
     NInv 4 0 0 (RElemMap 0); NInv 5 1 0 (RElemMap 1); NInv 6 0 1 (RPlain (OElem 1 (ESet 7))); NInv 7 1 1 (RPlain (OElem 0 (ESet 8)))]) by (vm_compute; reflexivity).
  rewrite H. clear H. match goal with |- qblocked ?l _ => set (h := l) end.
  assert (No : forall k id t d x, nth_error h k <> Some (NAcc id t d x)) by (intros k id t d x; do 8 (destruct k as [|k]; [discriminate|]); destruct k; discriminate).
  assert (L6 : has_lent h 6 0). { exists 4, (RElemMap 0). split; [|reflexivity]. exists 0, 0, 1. eexists. split; [lia|]. split; [split|]; reflexivity. }
  assert (L7 : has_lent h 7 1). { exists 5, (RElemMap 1). split; [|reflexivity]. exists 1, 0, 1. eexists. split; [lia|]. split; [split|]; reflexivity. }
  intros id [-> | ->].
  - exists 0, 1, (RPlain (OElem 1 (ESet 7))), 1, 7. split; [split; reflexivity|]. split; [auto|]. split; [assumption|]. split; [reflexivity|]. intros k t d x Hk. destruct (No _ _ _ _ _ Hk).
  - exists 1, 1, (RPlain (OElem 0 (ESet 8))), 0, 6. split; [split; reflexivity|]. split; [auto|]. split; [assumption|]. split; [reflexivity|]. intros k t d x Hk. destruct (No _ _ _ _ _ Hk).
Qed.

Print Assumptions C53_waits.
Print Assumptions C53_ends.
Print Assumptions C53_push_for.
Print Assumptions C53_exclusive.
Print Assumptions C53_deadlock.
Print Assumptions C53_self_deadlock.
