(** * C54: what calls wait for over several vectors, and when they can end, under release/acquire.

    [RA/WCross.v] has the vocabulary: a thread [xwaits] if the next step of its innermost call, over all vectors, is
    a round of a busy-wait even though it reads the newest message. *)

From Coq Require Import List Arith Bool Lia Sorting.Sorted.
From Verif.Model Require Import Prog Mem Deps State Elem Vec Excl Machine Reentrant Network.
From Verif Require Import Client Spec Nested.
From Verif.Logic Require Import Reentry Nesting.
From Verif.RA Require Import Weak WTrace WReentrant WNetwork WLent WStacks WWaits WCross WDead.
From Verif.Properties Require Import C33 Examples Weak WeakReentrant WeakNetwork.
Import ListNotations.
Local Notation inside := Nested.inside.
Local Notation overran := Weak.overran.

Section Cross.
  Context {V : Type} (E : nat -> env V) (ro : nat -> bool) (l0 : nat -> list V) (c0 m0 : nat -> nat).
  Implicit Types (c : xcfg V).
  Notation xexec := (xexecution E ro l0 c0 m0).

  (** A thread that waits, waits with its innermost call, on vector [w], (a) for an element that was lent to a closure of
      [w] it is inside of, or that a call of another thread on [w] uses, which is the innermost one of
      that thread over all vectors or lends the element to its closure; or (b) for room at positions beyond the
      capacity while the first of these belongs to the innermost call of another thread over all vectors, or to a
      [push_for_idx] of [w] whose closure is running, maybe the one it is inside of; or (c) that position was
      reserved by a growth call that panicked without having made room; or (d) it is [swap(i,i)].  An
      innermost call of another thread that is waited for does not wait itself, unless it is a [swap]. *)
  Theorem C54_waits c t : xexec c -> xwaits E c t -> exists w id rest fr d, xopen c t = (w, id) :: rest /\ runs (xvecs c w) t d fr /\ k_id fr = id /\
    ((exists i, rtouches (k_op fr) i /\ qstate (xvecs c w) i = RESERVED /\
        (has_lent (q_hist (xvecs c w)) id i \/
         exists t' d' fr', t' <> t /\ runs (xvecs c w) t' d' fr' /\ rtouches (k_op fr') i /\
           (xtopmost c t' w (k_id fr') -> xwaits E c t' -> exists o, k_op fr' = RPlain o /\ swaps o = true /\ hspin (E w) = true) /\
           (xtopmost c t' w (k_id fr') \/ lends (k_op fr') (length (values_read (q_hist (xvecs c w)) (k_id fr'))) = Some i))) \/
     (rgrows (k_op fr) = true /\ exists b, qreserved (xvecs c w) (k_num fr) b (asks (k_op fr)) /\ qcapacity (xvecs c w) < b /\
        ((exists t' d' fr' b', runs (xvecs c w) t' d' fr' /\ (t' <> t -> xtopmost c t' w (k_id fr') -> ~ xwaits E c t') /\ rgrows (k_op fr') = true /\
            qreserved (xvecs c w) (k_num fr') b' (asks (k_op fr')) /\ b' <= qcapacity (xvecs c w) < b' + asks (k_op fr') /\
            (t' <> t /\ xtopmost c t' w (k_id fr') \/
             k_op fr' = RPushFor /\ (t' = t -> inside (q_hist (xvecs c w)) id (k_id fr') RPushFor))) \/
         (exists num id o m b' n, In (num, id, o, m) (q_panics (xvecs c w)) /\ overran (with_answers (fun _ => None) o) m /\ qreserved (xvecs c w) num b' n /\
            b' <= qcapacity (xvecs c w) < b' + n))) \/
     (exists o1, k_op fr = RPlain o1 /\ self_swap o1 = true /\ hspin (E w) = true)).
  Proof.
    intros X (w & id & rest & Cl & W). destruct (x_waits_on E ro l0 c0 m0 c t w id rest X Cl W) as (fr & d & F & _ & Hf & Q).
    exists w, id, rest, fr, d. split; [exact Cl|]. split; [exact F|]. split; [exact Hf|].
    destruct Q as [(i & A & B & [Hl|(t' & d' & fr' & Nt & F' & Lv & Ti & Q)])|[(G & b & Rb & Lt & [(t' & d' & fr' & b' & F' & Nw & Gf & Rb' & Hb & Q)|Q])|Q]].
    - left. exists i. auto.
    - left. exists i. split; [exact A|]. split; [exact B|]. right. exists t', d', fr'. split; [exact Nt|]. split; [exact F'|]. split; [exact Ti|]. split; [|exact Q].
      intros Tp W'. apply Lv; [eapply x_on_top; eauto|]. destruct Tp as (rest' & Cl'). eapply x_qwaits; eauto.
    - right. left. split; [exact G|]. exists b. split; [exact Rb|]. split; [exact Lt|]. left. exists t', d', fr', b'. split; [exact F'|]. split; [|auto].
      intros Nt Tp W'. apply (Nw Nt); [eapply x_on_top; eauto|]. destruct Tp as (rest' & Cl'). eapply x_qwaits; eauto.
    - right. left. split; [exact G|]. exists b. auto.
    - right. right. exact Q.
  Qed.

  (** If closures only use vectors with higher numbers than the ones they are called by, and no unfinished call waits
      for an element while it holds another one ([swap]), and no growth call has panicked without having made room:
      then never do all threads wait. *)
  Theorem C54_ordered c t : xexec c -> unswapped E c -> xordered c -> ~ xoverran c -> xopen c t <> [] ->
    exists t', xopen c t' <> [] /\ ~ xwaits E c t'.
  Proof. apply x_ordered. Qed.
  (** Moreover all calls can be brought to their ends, whatever the closures answer: there are steps, none of them
      a new call, which read the newest messages and after which no call is unfinished, or a growth call
      panicked without having made room. *)
  Theorem C54_ends c say : xexec c -> unswapped E c -> xordered c -> ~ xoverran c ->
    exists c', xrun E say c c' /\ xexec c' /\ ((forall t, xopen c' t = []) \/ xoverran c').
  Proof. apply x_ends. Qed.
End Cross.

Section Deadlock.
  Context {V : Type} (E : nat -> env V) (l0 : nat -> list V) (c0 m0 : nat -> nat).
  Implicit Types (c : xcfg V).
  Notation ro := (fun _ : nat => false).
  Notation xexec := (xexecution E ro l0 c0 m0).

  (** Every call of the set [A] needs the value of an element that a call of the same vector lends to its closure, and
      this closure is itself inside a call of [A], maybe one of another vector: then none of these calls
      ever ends, whatever happens and whatever is read. *)
  Definition xdeadlocked c (A : nat -> nat -> Prop) : Prop :=
    forall w id, A w id -> exists t d o i id1 t1 d1 o1 w2 id2, ropen (q_hist (xvecs c w)) id t d o /\ uses o i /\
      (forall k t' d' x, nth_error (q_hist (xvecs c w)) k = Some (NAcc id t' d' x) -> ~ on_elem i x) /\
      ropen (q_hist (xvecs c w)) id1 t1 d1 o1 /\ lends o1 (length (values_read (q_hist (xvecs c w)) id1)) = Some i /\
      A w2 id2 /\ xwithin c w2 id2 w id1.
  Lemma xdeadlocked_step c l c' A : xexec c -> xclient E ro c l -> xstep E c l = XNext c' -> xdeadlocked c A -> xdeadlocked c' A.
  Proof.
    intros X C S B. pose proof (xexec_step E ro l0 c0 m0 c l c' X C S) as X'.
    assert (Tl : forall w id1 w2 id2, xwithin c w2 id2 w id1 -> exists t x rest, xopen c t = x :: rest /\ In (w, id1) rest).
    { intros w id1 w2 id2 (t & h & rest & Cl & I). destruct h as [|y h]; [eexists t, _, rest; split; [exact Cl|assumption]|].
      eexists t, y, _. split; [exact Cl|]. apply in_or_app. right. now right. }
    (* the calls around do nothing *)
    assert (Sil : forall w id1 w2 id2, xwithin c w2 id2 w id1 -> q_hist (xvecs c' w) = q_hist (xvecs c w) \/ exists e, q_hist (xvecs c' w) = q_hist (xvecs c w) ++ [e] /\ caller e <> Some id1).
    { intros w id1 w2 id2 Wi. destruct (Tl _ _ _ _ Wi) as (t & x & rest & Cl & I). eapply x_silent; eauto. }
    assert (Sus : forall w id1 w2 id2 t1 d1 o1, xwithin c w2 id2 w id1 -> ropen (q_hist (xvecs c w)) id1 t1 d1 o1 ->
                    exists fr k, frame_at (stack t1 (q_run (xvecs c w))) d1 = Some fr /\ k_id fr = id1 /\ k_op fr = o1 /\ k_prog fr = RClo k).
    { intros w id1 w2 id2 t1 d1 o1 Wi O. destruct (Tl _ _ _ _ Wi) as (t & x & rest & Cl & I). destruct (x_waiting E l0 c0 m0 c t x rest w id1 X Cl I) as (d & fr & k & F & Fi & Fp).
      destruct (x_nest E ro l0 c0 m0 c w X) as [Ri _]. pose proof (ri_ids _ Ri _ _ _ (frame_rof _ _ _ _ F)) as Hi. cbn [frame_of f_id f_op rof rhist] in Hi.
      destruct O as [O _]. rewrite Fi, O in Hi. injection Hi as <- <- Ho. exists fr, k. auto. }
    (* the calls of the set do not reach the element *)
    assert (Acc : forall w id, A w id -> exists t d o i id1 t1 d1 o1 w2 id2, ropen (q_hist (xvecs c w)) id t d o /\ uses o i /\
      (forall k t' d' x, nth_error (q_hist (xvecs c' w)) k = Some (NAcc id t' d' x) -> ~ on_elem i x) /\
      ropen (q_hist (xvecs c w)) id1 t1 d1 o1 /\ lends o1 (length (values_read (q_hist (xvecs c w)) id1)) = Some i /\
      A w2 id2 /\ xwithin c w2 id2 w id1).
    { intros w id Ha. destruct (B w id Ha) as (t & d & o & i & id1 & t1 & d1 & o1 & w2 & id2 & O & U & No & O1 & Le & A2 & Wi).
      exists t, d, o, i, id1, t1, d1, o1, w2, id2. split; [assumption|]. split; [assumption|]. split; [|auto 6]. intros k t' d' x Hk.
      destruct (Sil _ _ _ _ Wi) as [Hh|(e & Hh & _)]; rewrite Hh in Hk; [eauto|]. apply nth_new in Hk as [Hk|[_ <-]]; [eauto|].
      destruct (Sus _ _ _ _ _ _ _ Wi O1) as (fr & k' & F & Fi & Fo & Fp).
      eapply (x_lent_frame E l0 c0 m0 c l c' w); [exact X|exact F|exact Fp|rewrite Fi, Fo; exact Le|exact S|exact Hh]. }
    (* so they do not end *)
    assert (Open : forall w id, A w id -> rdone (q_hist (xvecs c' w)) id = false).
    { intros w id Ha. destruct (Acc w id Ha) as (t & d & o & i & id1 & t1 & d1 & o1 & w2 & id2 & O & U & No & O1 & Le & A2 & Wi).
      destruct (rdone (q_hist (xvecs c' w)) id) eqn:D; [exfalso|reflexivity].
      assert (Hi : nth_error (q_hist (xvecs c' w)) id = Some (NInv id t d o)).
      { destruct (Sil _ _ _ _ Wi) as [Hh|(e & Hh & _)]; rewrite Hh; [apply O|]. apply nth_old, O. }
      destruct (x_must_use E l0 c0 m0 c' w id t d o i X' Hi D U) as (k & t' & d' & x & Hk & On). eapply No; eauto. }
    intros w id Ha. destruct (Acc w id Ha) as (t & d & o & i & id1 & t1 & d1 & o1 & w2 & id2 & O & U & No & O1 & Le & A2 & Wi).
    exists t, d, o, i, id1, t1, d1, o1, w2, id2. destruct (Sil _ _ _ _ Wi) as [Hh|(e & Hh & Ne)].
    - split; [split; [rewrite Hh; apply O|apply Open; assumption]|]. split; [assumption|]. split; [assumption|]. rewrite Hh. split; [assumption|]. split; [assumption|]. split; [assumption|].
      exact (x_within_step E l0 c0 m0 _ _ _ _ _ _ _ X X' S Wi (Open _ _ A2)).
    - split; [split; [rewrite Hh; apply nth_old, O|apply Open; assumption]|]. split; [assumption|]. split; [assumption|].
      split; [split; [rewrite Hh; apply nth_old, O1|]|].
      { rewrite Hh, rdone_snoc, (proj2 O1). destruct e; try reflexivity; simpl in *; destruct (Nat.eqb_spec id0 id1); congruence. }
      split; [|split; [assumption|exact (x_within_step E l0 c0 m0 _ _ _ _ _ _ _ X X' S Wi (Open _ _ A2))]].
      rewrite Hh, values_app. replace (values_read [e] id1) with (@nil V); [rewrite app_nil_r; assumption|]. symmetry. apply values_fresh. intros e' [<-|[]]. assumption.
  Qed.
  Theorem C54_deadlock c A c' w id : xexec c -> xdeadlocked c A -> xreach E (xclient E ro) c c' -> A w id -> rdone (q_hist (xvecs c' w)) id = false.
  Proof.
    intros X B R Ha. assert (K : xexec c' /\ xdeadlocked c' A).
    { induction R as [|c1 l c2 R [X1 IH] C S]; [auto|]. split; [eapply xexec_step; eauto|]. eapply xdeadlocked_step; eauto. }
    destruct K as [_ K]. destruct (K w id Ha) as (t & d & o & i & id1 & t1 & d1 & o1 & w2 & id2 & (_ & D) & _). exact D.
  Qed.
End Deadlock.

(** ** Examples *)
Definition xrounds (c : xcfg nat) (t : nat) : bool := match xopen c t with (w, _) :: _ => rounds ex (xvecs c w) t | [] => false end.
Lemma m_waits s t : mpossible false s = true -> xrounds (mfinal false s) t = true -> xwaits xex (xfinal false s) t.
Proof.
  intros P. unfold xrounds. destruct (xopen (mfinal false s) t) as [|[w id] rest] eqn:Cl; [discriminate|]. intros H. exists w, id, rest. rewrite (m_open false s t P), (m_vec false s w P).
  split; [exact Cl|]. apply rounds_iff. exact H.
Qed.
Lemma m_not_waits s t : mpossible false s = true -> xrounds (mfinal false s) t = false -> ~ xwaits xex (xfinal false s) t.
Proof.
  intros P H (w & id & rest & Cl & W). rewrite (m_open false s t P) in Cl. rewrite (m_vec false s w P) in W. apply rounds_iff in W. unfold xrounds in H. rewrite Cl in H.
  change (xex w) with ex in W. congruence.
Qed.
(** Thread 0 takes a reference to the first element of each vector. *)
Definition xfirsts : list xitem := xcall 0 0 (RPlain (OGet 0)) 0 ++ xcall 1 0 (RPlain (OGet 0)) 0.
(** [a[0].map(|_| b[0].set(7))] and [b[0].map(|_| a[0].set(8))] in two threads. *)
Definition xacross : list xitem :=
  xfirsts ++ xcall 0 0 (RElemMap 0) 0 ++ xcall 1 1 (RElemMap 0) 0 ++
  [XLab (XOn 1 (QInv 0 (RPlain (OElem 0 (ESet 7))) 0)); XStp 1 0; XLab (XOn 0 (QInv 1 (RPlain (OElem 0 (ESet 8))) 0)); XStp 0 1].
Example C54_waits_example : xexec false (xfinal false xacross) /\ xwaits xex (xfinal false xacross) 0 /\ xwaits xex (xfinal false xacross) 1.
Proof.
  assert (P : mpossible false xacross = true) by (vm_compute; reflexivity).
  split; [now apply m_run|]. split; (apply m_waits; [assumption|vm_compute; reflexivity]).
Qed.

(** [a[0].map(|_| b[0].set(7))] in thread 0, while the closure of [b[0].map(..)] runs in thread 1. *)
Definition xupward : list xitem :=
  xfirsts ++ xcall 0 0 (RElemMap 0) 0 ++ xcall 1 1 (RElemMap 0) 0 ++ [XLab (XOn 1 (QInv 0 (RPlain (OElem 0 (ESet 7))) 0)); XStp 1 0].
Definition xup : xcfg nat := xfinal false xupward.
Lemma xup_possible : mpossible false xupward = true.
Proof. vm_compute. reflexivity. Qed.
Lemma xup_calls : xopen xup 0 = [(1, 3); (0, 2)] /\ xopen xup 1 = [(1, 2)] /\ forall t, xopen xup (S (S t)) = [].
Proof.
  unfold xup. split; [rewrite (m_open _ _ _ xup_possible); vm_compute; reflexivity|]. split; [rewrite (m_open _ _ _ xup_possible); vm_compute; reflexivity|].
  intros t. rewrite (m_open _ _ _ xup_possible). vm_compute. reflexivity.
Qed.
Lemma xup_panics : ~ xoverran xup.
Proof.
  assert (N : forall w, existsb (fun _ => true) (q_panics (xvecs xup w)) = false) by (intros w; unfold xup; rewrite (m_vec _ _ _ xup_possible); destruct w as [|[|w]]; vm_compute; reflexivity).
  intros (w & num & id & o & m & I & _). specialize (N w). destruct (q_panics (xvecs xup w)); [destruct I|discriminate].
Qed.
Lemma xup_swaps : unswapped xex xup.
Proof.
  assert (N : forall w id, existsb (fun e => match e with NInv _ _ _ (RPlain o) => swaps o | _ => false end) (q_hist (xvecs xup w)) = id -> id = false)
    by (intros w id <-; unfold xup; rewrite (m_vec _ _ _ xup_possible); destruct w as [|[|w]]; vm_compute; reflexivity).
  intros w t d fr o F Ho Sw. exfalso. destruct (x_runs xex (fun _ => false) (fun _ => [5; 6]) (fun _ => 2) (fun _ => 8) xup w t d fr (m_run _ _ xup_possible) F) as [I _].
  apply nth_error_In in I. rewrite Ho in I. specialize (N w _ eq_refl). generalize dependent (q_hist (xvecs xup w)). intros h N I.
  assert (K : existsb (fun e => match e with NInv _ _ _ (RPlain o) => swaps o | _ => false end) h = true) by (apply existsb_exists; eexists; split; [exact I|exact Sw]). congruence.
Qed.
Lemma xup_ordered : xordered xup.
Proof. destruct xup_calls as (C0 & C1 & C2). intros [|[|t]]; [rewrite C0|rewrite C1|rewrite C2]; repeat constructor. Qed.
Example C54_ordered_example : xexec false xup /\ unswapped xex xup /\ xordered xup /\ ~ xoverran xup /\ xwaits xex xup 0 /\ ~ xwaits xex xup 1 /\ xopen xup 1 <> [].
Proof.
  split; [exact (m_run _ _ xup_possible)|]. split; [exact xup_swaps|]. split; [exact xup_ordered|]. split; [exact xup_panics|].
  split; [apply m_waits; [exact xup_possible|vm_compute; reflexivity]|]. split; [apply m_not_waits; [exact xup_possible|vm_compute; reflexivity]|]. rewrite (proj1 (proj2 xup_calls)). discriminate.
Qed.
(** ... where all calls can end. *)
Example C54_ends_example : xexec false xup /\ unswapped xex xup /\ xordered xup /\ ~ xoverran xup /\ (exists t, xopen xup t <> []) /\
  let s := xupward ++ xanswer 1 1 (Some (AVal 1)) ++ [XFin 1 0] ++ xanswer 0 0 (Some (AVal 1)) in
  xexec false (xfinal false s) /\ xopen (xfinal false s) 0 = [] /\ xopen (xfinal false s) 1 = [].
Proof.
  split; [exact (m_run _ _ xup_possible)|]. split; [exact xup_swaps|]. split; [exact xup_ordered|]. split; [exact xup_panics|]. split; [exists 0; rewrite (proj1 xup_calls); discriminate|].
  cbv zeta. assert (P : mpossible false (xupward ++ xanswer 1 1 (Some (AVal 1)) ++ [XFin 1 0] ++ xanswer 0 0 (Some (AVal 1))) = true) by (vm_compute; reflexivity).
  split; [now apply m_run|]. split; rewrite (m_open _ _ _ P); vm_compute; reflexivity.
Qed.

Definition xdead : xcfg nat := xfinal false xacross.
(** The calls of [set] in the closures. *)
Definition xinners (w id : nat) : Prop := w <= 1 /\ id = 3.
Example C54_deadlock_example : xexec false xdead /\ xdeadlocked xdead xinners /\ xinners 0 3.
Proof.
  assert (P : mpossible false xacross = true) by (vm_compute; reflexivity). split; [now apply m_run|]. split; [|split; [lia|reflexivity]].
  assert (No : forall w, w <= 1 -> forall k t d x, nth_error (q_hist (xvecs xdead w)) k <> Some (NAcc 3 t d x)).
  { intros w Lw k t d x H. apply nth_error_In in H. assert (K : existsb (fun e => match e with NAcc 3 _ _ _ => true | _ => false end) (q_hist (xvecs xdead w)) = true).
    { apply existsb_exists. exists (NAcc 3 t d x). split; [assumption|]. reflexivity. }
    revert K. unfold xdead. rewrite (m_vec _ _ _ P). destruct w as [|[|w]]; [vm_compute; discriminate|vm_compute; discriminate|lia]. }
  intros w id [Lw ->]. destruct w as [|[|w]]; [| |lia].
  - exists 1, 0, (RPlain (OElem 0 (ESet 8))), 0, 2, 0, 0, (RElemMap 0), 1, 3.
    split; [split; unfold xdead; rewrite (m_vec _ _ _ P); vm_compute; reflexivity|]. split; [reflexivity|].
    split; [intros k t d x H _; exact (No 0 (le_S _ _ (le_n 0)) k t d x H)|]. split; [split; unfold xdead; rewrite (m_vec _ _ _ P); vm_compute; reflexivity|].
    split; [unfold xdead; rewrite (m_vec _ _ _ P); vm_compute; reflexivity|]. split; [split; [lia|reflexivity]|].
    exists 0, [], [(0, 2)]. split; [unfold xdead; rewrite (m_open _ _ _ P); vm_compute; reflexivity|now left].
  - exists 0, 0, (RPlain (OElem 0 (ESet 7))), 0, 2, 1, 0, (RElemMap 0), 0, 3.
    split; [split; unfold xdead; rewrite (m_vec _ _ _ P); vm_compute; reflexivity|]. split; [reflexivity|].
    split; [intros k t d x H _; exact (No 1 (le_n 1) k t d x H)|]. split; [split; unfold xdead; rewrite (m_vec _ _ _ P); vm_compute; reflexivity|].
    split; [unfold xdead; rewrite (m_vec _ _ _ P); vm_compute; reflexivity|]. split; [split; [lia|reflexivity]|].
    exists 1, [], [(1, 2)]. split; [unfold xdead; rewrite (m_open _ _ _ P); vm_compute; reflexivity|now left].
Qed.
Lemma xdead_open c' w : xreach xex (xclient xex (fun _ => false)) xdead c' -> w <= 1 -> rdone (q_hist (xvecs c' w)) 3 = false.
Proof.
  intros R Lw. destruct C54_deadlock_example as (X & D & _).
  exact (C54_deadlock xex (fun _ => [5; 6]) (fun _ => 2) (fun _ => 8) xdead xinners c' w 3 X D R (conj Lw eq_refl)).
Qed.
(** Without the order: no [swap], no panic, no closure uses the vector it is called by, and yet all threads that have
    calls wait, and none of these calls ever ends. *)
Theorem C54_cross_refuted : exists c, xexec false c /\ unswapped xex c /\ ~ xoverran c /\ xopen c 0 <> [] /\ (forall w2 id2 w1 id1, xwithin c w2 id2 w1 id1 -> w1 <> w2) /\
  (forall t, xopen c t <> [] -> xwaits xex c t) /\
  forall c', xreach xex (xclient xex (fun _ => false)) c c' -> rdone (q_hist (xvecs c' 1)) 3 = false /\ rdone (q_hist (xvecs c' 0)) 3 = false.
Proof.
  exists xdead. assert (P : mpossible false xacross = true) by (vm_compute; reflexivity). destruct C54_waits_example as (X & W0 & W1).
  assert (C0 : xopen xdead 0 = [(1, 3); (0, 2)]) by (unfold xdead; rewrite (m_open _ _ _ P); vm_compute; reflexivity).
  assert (C1 : xopen xdead 1 = [(0, 3); (1, 2)]) by (unfold xdead; rewrite (m_open _ _ _ P); vm_compute; reflexivity).
  assert (C2 : forall t, xopen xdead (S (S t)) = []) by (intros t; unfold xdead; rewrite (m_open _ _ _ P); vm_compute; reflexivity).
  split; [exact X|]. split; [|split; [|split; [|split; [|split]]]].
  - assert (N : forall w, existsb (fun e => match e with NInv _ _ _ (RPlain o) => swaps o | _ => false end) (q_hist (xvecs xdead w)) = false)
      by (intros w; unfold xdead; rewrite (m_vec _ _ _ P); destruct w as [|[|w]]; vm_compute; reflexivity).
    intros w t d fr o F Ho Sw. exfalso. destruct (x_runs xex (fun _ => false) (fun _ => [5; 6]) (fun _ => 2) (fun _ => 8) xdead w t d fr X F) as [I _].
    apply nth_error_In in I. rewrite Ho in I. specialize (N w). generalize dependent (q_hist (xvecs xdead w)). intros h N I.
    assert (K : existsb (fun e => match e with NInv _ _ _ (RPlain o) => swaps o | _ => false end) h = true) by (apply existsb_exists; eexists; split; [exact I|exact Sw]). congruence.
  - assert (N : forall w, existsb (fun _ => true) (q_panics (xvecs xdead w)) = false) by (intros w; unfold xdead; rewrite (m_vec _ _ _ P); destruct w as [|[|w]]; vm_compute; reflexivity).
    intros (w & num & id & o & m & I & _). specialize (N w). destruct (q_panics (xvecs xdead w)); [destruct I|discriminate].
  - rewrite C0. discriminate.
  - intros w2 id2 w1 id1 (t & h & rest & Cl & I) ->. destruct t as [|[|t]]; [rewrite C0 in Cl|rewrite C1 in Cl|rewrite C2 in Cl; destruct h; discriminate].
    + destruct h as [|x [|y h]]; [injection Cl as <- _ <-|injection Cl as _ <- _ <-|injection Cl as _ _ Cl; destruct h; discriminate]; [|destruct I]. destruct I as [I|[]]. discriminate.
    + destruct h as [|x [|y h]]; [injection Cl as <- _ <-|injection Cl as _ <- _ <-|injection Cl as _ _ Cl; destruct h; discriminate]; [|destruct I]. destruct I as [I|[]]. discriminate.
  - intros [|[|t]] H; [exact W0|exact W1|]. destruct H. apply C2.
  - intros c' R. split; apply (xdead_open c' _ R); [apply le_n|apply le_S, le_n].
Qed.

Print Assumptions C54_waits.
Print Assumptions C54_ordered.
Print Assumptions C54_ends.
Print Assumptions C54_deadlock.
Print Assumptions C54_cross_refuted.
