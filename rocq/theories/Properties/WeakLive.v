(** * C48: who waits for whom, and when calls end, under release/acquire.

    [RA/WFair.v] has the vocabulary.  In the view machine a load may read any message that the thread
    has not gone beyond, so a thread can always go on reading an old message.  A call [waits] if its next
    step is a round of a busy-wait even though it reads the newest message. *)

From Coq Require Import List Arith Bool Lia.
From Verif.Model Require Import Prog Mem Deps State Elem Vec Excl Machine.
From Verif Require Import Client.
From Verif Require Fair.
From Verif.Logic Require Import Shape Clients Locks Progress Cost.
From Verif.RA Require Import Weak WFair WInv WStep WSlots WSpecs WOps WSound WLocks WLive.
From Verif.Properties Require Import C33 Examples.
Require Import Verif.Properties.Weak.
Import ListNotations.
Local Notation latest := Weak.latest.
Local Notation waits := WFair.waits.
Local Notation goes_on := WFair.goes_on.
Local Notation inside := WFair.inside.
Local Notation over := WFair.over.
Local Notation path := WFair.path.
Local Notation work := WFair.work.
Local Notation steps_of := WFair.steps_of.
Local Notation endless := WFair.endless.
Local Notation fair := WFair.fair.
Local Notation cost := Fair.cost.

(** The continuations of [c] in which thread [u] makes no step and thread [t] reads the newest messages. *)
Definition stalls {V} (E : env V) (ro : bool) (u t : nat) (c c' : wcfg V) : Prop :=
  wreach E (fun c l => wclient E ro c l /\ (forall k, l <> WStep u k) /\ (forall k, l = WStep t k -> k = front c t)) c c'.

Section Waiting.
  Context {V : Type} (E : env V) (ro : bool) (l0 : list V) (c0 m0 : nat) (c : wcfg V).
  Hypothesis X : wexecution E ro l0 c0 m0 c.
  Notation P := (wclient E ro).

  Lemma block_res id b n : block id (w_mem c) b n <-> reserved c id b n.
  Proof.
    split.
    - intros (k & m & m' & A1 & A2 & A3 & A4 & A5). exists k, m', m. auto.
    - intros (k & m & m' & A1 & A2 & A3 & A4 & A5). exists k, m', m. auto.
  Qed.
  Lemma waits_blocked t : waits E c t -> exists x g f, wlookup t (w_run c) = Some x /\ world E ro c g f /\ blocked (w_mem c) (wc_prog x).
  Proof.
    intros W. destruct (execution_world E ro _ _ _ _ X) as (EOK & g & f & Wo).
    assert (Lk : exists x, wlookup t (w_run c) = Some x) by (unfold WFair.waits in W; simpl in W; unfold wstep_thread in W; destruct (wlookup t (w_run c)); [eauto|discriminate]).
    destruct Lk as (x & Lk). exists x, g, f. split; [exact Lk|]. split; [exact Wo|].
    destruct (front_step E ro EOK c g f t x Wo Lk) as [[B _]|(_ & c' & St & Mv)]; [exact B|]. unfold WFair.waits in W. rewrite W in St. injection St as <-. now apply moved_ne in Mv.
  Qed.

  (** A call that waits, waits (a) for an element that a running call of another thread holds, or (b)
      for room at positions beyond the capacity, while the first position beyond the capacity is reserved
      by a running growth call of another thread, or (c) was reserved by a growth call that panicked without having made room, or
      (d) it is [swap(i,i)]. *)
  Theorem C48_waits t : waits E c t -> exists id o, inside c t id o /\
    ((exists i u id' o', touches o i /\ state c i = RESERVED /\ u <> t /\ inside c u id' o' /\ touches o' i) \/
     (grows o = true /\ exists b, reserved c id b (request o) /\ capacity c < b /\
        exists u id' o' b', u <> t /\ inside c u id' o' /\ grows o' = true /\ reserved c id' b' (request o') /\ b' <= capacity c < b' + request o') \/
     (grows o = true /\ exists b, reserved c id b (request o) /\ capacity c < b /\
        exists id' o' m b' n, In (id', o', m) (w_panics c) /\ overran o' m /\ reserved c id' b' n /\ b' <= capacity c < b' + n) \/
     (self_swap o = true /\ hspin E = true)).
  Proof.
    intros W. destruct (waits_blocked t W) as (x & g & f & Lk & Wo & Bk). exists (wc_id x), (wc_op x). split; [exists x; auto|]. unfold capacity.
    destruct (waiting E ro c g f t x Wo Lk Bk) as [(i & u & z & (ag & k & _) & Hg & Lu & _ & T1 & T2 & _ & Hs)|(Gr & b & ag & k & _ & Bb & Lt & [(u & z & b' & Nu & Lu & Gz & Bz & Hb & _)|(id & o & m & b' & n & Hin & Go & Bz & Hb)])].
    - destruct (Nat.eq_dec u t) as [->|Ne].
      + right. right. right. destruct (Hs eq_refl) as [H1 H2]. split; [exact H1|]. unfold waits_holding in H2. now apply andb_true_iff in H2.
      + left. exists i, u, (wc_id z), (wc_op z). split; [exact T1|]. split; [|split; [exact Ne|split; [exists z; auto|exact T2]]].
        apply (locked_top E ro (w_mem c) g i (si_wi _ _ _ _ (proj1 Wo))). eauto.
    - right. left. split; [exact Gr|]. exists b. split; [now apply block_res|]. split; [exact Lt|]. exists u, (wc_id z), (wc_op z), b'.
      split; [exact Nu|]. split; [exists z; auto|]. split; [exact Gz|]. split; [now apply block_res|exact Hb].
    - right. right. left. split; [exact Gr|]. exists b. split; [now apply block_res|]. split; [exact Lt|]. exists id, o, m, b', n.
      split; [exact Hin|]. split; [exact Go|]. split; [now apply block_res|exact Hb].
  Qed.

  (** In cases (a) and (b) the call waits for ever if the other thread makes no step, whatever the rest of
      the threads do. *)
  Theorem C48_stalled t id o : waits E c t -> inside c t id o -> self_swap o && hspin E = false -> grows o = false \/ no_overrun c ->
    exists u id' o', u <> t /\ inside c u id' o' /\ forall c', stalls E ro u t c c' -> inside c' t id o.
  Proof.
    intros W (x' & Lx & <- & <-) Ns Gp. destruct (waits_blocked t W) as (x & g & f & Lk & Wo & Bk). rewrite Lk in Lx. injection Lx as <-.
    assert (K : forall u z, u <> t -> wlookup u (w_run c) = Some z -> held_up c g z (wc_prog x) ->
              exists u id' o', u <> t /\ inside c u id' o' /\ forall c', stalls E ro u t c c' -> inside c' t (wc_id x) (wc_op x)).
    { intros u z Ne Lu Hu. exists u, (wc_id z), (wc_op z). split; [exact Ne|]. split; [exists z; auto|]. intros c' R.
      destruct (held_forever E ro (proj1 X) c g f t x u z c' Wo Lk Lu Hu R) as (g' & f' & _ & L' & _). exists x. auto. }
    destruct (waiting E ro c g f t x Wo Lk Bk) as [(i & u & z & Oi & Hg & Lu & _ & _ & _ & _ & Hs)|(Gr & b & ag & k & Hp & Bb & Lt & [(u & z & b' & Nu & Lu & Gz & Bz & Hb & _)|(id & o & m & b' & n & Hin & Go & Bz & Hb)])].
    - apply (K u z); [|exact Lu|left; eauto]. intros ->. destruct (Hs eq_refl) as [H1 H2]. unfold waits_holding in H2. apply andb_true_iff in H2. destruct H2 as [_ H2]. rewrite H1, H2 in Ns. discriminate.
    - apply (K u z Nu Lu). right. split; [|eapply cap_owner; eauto]. exists ag, k. split; [exact Hp|]. rewrite Hp in Bk. exact Bk.
    - destruct Gp as [Gp|Gp]; [congruence|]. destruct (Gp _ _ _ Hin Go).
  Qed.

  (** A call that is alone in the vector ends: thread [t] reaches the end of its call by its own steps. *)
  Theorem C48_alone t id o : inside c t id o -> (forall u id' o', inside c u id' o' -> u = t) ->
    self_swap o && hspin E = false -> grows o = false \/ no_overrun c ->
    exists ls c', path E P c ls c' /\ (forall l, In l ls -> exists k, l = WStep t k) /\ w_run c' = [].
  Proof.
    intros (x & Lk & <- & <-) On Ns Gp. apply (alone_ends E ro l0 c0 m0 c t x X Lk); auto. intros u z Lu. apply (On u (wc_id z) (wc_op z)). exists z. auto.
  Qed.

  (** As long as some call is running, some thread can go on, if no running call can wait while it holds
      an element (only [swap] can, unless its handles do not wait) ... *)
  Theorem C48_progress t id o : no_overrun c -> (forall u id' o', inside c u id' o' -> swaps o' && hspin E = false) -> inside c t id o ->
    exists u id' o', inside c u id' o' /\ goes_on E c u.
  Proof.
    intros Np Ns (x & Lk & _). destruct (execution_world E ro _ _ _ _ X) as (EOK & g & f & Wo).
    destruct (someone E ro EOK c g f t x Wo Lk Np) as (u & z & Lu & Nb).
    { intros u z Lu. apply (Ns u (wc_id z)). exists z. auto. }
    exists u, (wc_id z), (wc_op z). split; [exists z; auto|]. destruct (front_step E ro EOK c g f u z Wo Lu) as [[B _]|(_ & c' & St & Mv)]; [contradiction|]. exists c'. split; [exact St|]. now apply moved_ne in Mv.
  Qed.
  (** ... and all running calls can end: the execution can be continued, without further calls, until no
      call is running, or some growth call panics without having made room. *)
  Theorem C48_all_end : no_overrun c -> (forall u id' o', inside c u id' o' -> swaps o' && hspin E = false) ->
    exists ls c', path E P c ls c' /\ (forall l, In l ls -> exists t k, l = WStep t k) /\ (w_run c' = [] \/ exists id o m, In (id, o, m) (w_panics c') /\ overran o m).
  Proof.
    intros Np Ns. apply (all_end E ro l0 c0 m0 c X); [|exact Np]. intros u z Lu. apply (Ns u (wc_id z)). exists z. auto.
  Qed.

  (** A call that neither locks elements nor reserves positions ([len], [get], [iter], [slice], ...) never
      waits, not even if it reads old messages. *)
  Theorem C48_no_wait t id o k c' : inside c t id o -> grows o = false -> (forall i, ~ touches o i) -> wstep E c (WStep t k) = WNext c' -> c' <> c.
  Proof.
    intros (x & Lk & <- & <-) Gr Nt St. pose proof (free_moves E ro l0 c0 m0 c t x k c' X Lk Gr Nt St) as Mv. now apply moved_ne in Mv.
  Qed.
  Lemma wcost_pos (o : op V) m : 0 < cost o m.
  Proof. destruct o; simpl; lia. Qed.
  (** Every call makes a bounded number of steps that are not rounds of a busy-wait, whatever the other
      threads do and whichever messages are read: all a call can lose time with is waiting. *)
  Theorem C48_work t id o k c' : inside c t id o -> work E P t c k c' -> cost o (m_max (w_mem c)) <= k -> over c' id.
  Proof.
    intros (x & Lk & <- & <-) Wk Hk. pose proof (all_left E ro l0 c0 m0 c X t x Lk) as L. pose proof (wcost_pos (wc_op x) (m_max (w_mem c))).
    apply (left_ends E ro l0 c0 m0 c t x _ k c' X L Wk). unfold cost1. lia.
  Qed.
  (** Wait-freedom: a call that neither locks elements nor reserves positions ends after a bounded number
      of steps of its thread, whatever the other threads do in between and whichever messages are read. *)
  Theorem C48_wait_free t id o ls c' : inside c t id o -> grows o = false -> (forall i, ~ touches o i) ->
    path E P c ls c' -> cost o (m_max (w_mem c)) <= steps_of t ls -> over c' id.
  Proof.
    intros (x & Lk & <- & <-) Gr Nt Pa Hk. pose proof (all_left E ro l0 c0 m0 c X t x Lk) as L. pose proof (wcost_pos (wc_op x) (m_max (w_mem c))).
    apply (path_ends E ro l0 c0 m0 t ls c x _ c' X L Gr Nt Pa). unfold cost1. lia.
  Qed.
End Waiting.

Section Endless.
  Context {V : Type} (E : env V) (ro : bool) (l0 : list V) (c0 m0 : nat) (cs : nat -> wcfg V) (ls : nat -> option (wlabel V)).
  Hypothesis X : wexecution E ro l0 c0 m0 (cs 0).
  Hypothesis N : endless E (wclient E ro) cs ls.
  Hypothesis F : fair cs ls.
  Hypothesis Np : forall n, no_overrun (cs n).

  (** Fair executions.  If no calls are started, no running call can wait while it holds an element and
      no growth call panics without having made room, then all running calls end, however the threads are scheduled, provided that
      no thread stops for ever in the middle of a call and stores become visible some time. *)
  Theorem C48_fair : (forall n t o from, ls n <> Some (WInv t o from)) -> (forall u id o, inside (cs 0) u id o -> swaps o && hspin E = false) ->
    exists n, w_run (cs n) = [].
  Proof.
    intros Ni Ns. apply (fair_rest E ro l0 c0 m0 cs ls X N F Ni Np). intros u z Lu. apply (Ns u (wc_id z)). exists z. auto.
  Qed.
  (** Growth calls do not starve: every [push], [extend], ... ends, whatever calls the other threads make. *)
  Theorem C48_growth n t id o : inside (cs n) t id o -> grows o = true -> exists m, n <= m /\ over (cs m) id.
  Proof.
    intros (x & Lk & <- & <-) Gr.
    assert (K : forall n x, wlookup t (w_run (cs n)) = Some x -> grows (wc_op x) = true -> wc_prog x <> op_prog E (wc_op x) -> exists m, n <= m /\ over (cs m) (wc_id x)).
    { clear n x Lk Gr. intros n x Lk Gr Ne. destruct (execution_world E ro _ _ _ _ (exec_at E ro l0 c0 m0 cs ls X N n)) as (EOK & g & f & (S & B & Hi)).
      destruct (h_base _ _ _ _ Hi t x Lk) as [[_ Q]|[(_ & b & Bb & _)|[Q _]]]; [contradiction| |congruence].
      destruct (growth_ends E ro l0 c0 m0 cs ls X N F b n t x Np Lk Gr Bb) as (m & Hm & [G _]). eauto. }
    destruct (F n t x Lk) as (m & Hm & Hl).
    assert (K2 : forall k, n <= k -> wlookup t (w_run (cs k)) = Some x -> moved (cs k) t x (cs (Datatypes.S k)) -> wc_prog x = op_prog E (wc_op x) -> exists m, n <= m /\ over (cs m) (wc_id x)).
    { intros k Hk Lx Mv Hp. destruct (tick_call E ro l0 c0 m0 cs ls X N k t x Lx) as [[L|[_ [(q & L & C)|[G _]]]] _].
      - exfalso. destruct Mv as [_ [(q & Lq & C & _)|[Lq _]]]; rewrite Lq in L; [|discriminate]. injection L as L.
        apply (f_equal wc_prog) in L. simpl in L. rewrite <- L in C. pose proof (no_loop q) as NL.
        destruct q as [r|m'|a kk|a ag kk]; simpl in C; try contradiction; destruct C as (y & e); apply (NL y); symmetry; exact e.
      - destruct (K (Datatypes.S k) _ L Gr) as (m' & Hm' & G); [|exists m'; split; [lia|exact G]]. simpl. intros e. rewrite Hp, <- e in C. pose proof (no_loop q) as NL.
        destruct q as [r|m'|a kk|a ag kk]; simpl in C; try contradiction; destruct C as (y & e'); apply (NL y); symmetry; exact e'.
      - exists (Datatypes.S k). split; [lia|exact G]. }
    destruct (execution_world E ro _ _ _ _ (exec_at E ro l0 c0 m0 cs ls X N n)) as (EOK & g & f & (S & B & Hi)).
    destruct (h_base _ _ _ _ Hi t x Lk) as [[_ Hp]|[(_ & b & Bb & _)|[Q _]]]; [| |congruence].
    - destruct (next_turn E ro l0 c0 m0 cs ls X N n m t x Hm Lk) as [(k & Hk & Lx & Mv)|Lm]; [apply (K2 k); auto; lia|].
      apply (K2 m Hm Lm); [|exact Hp]. destruct (execution_world E ro _ _ _ _ (exec_at E ro l0 c0 m0 cs ls X N m)) as (_ & g' & f' & Wo).
      pose proof (N m) as R. unfold tick in R. rewrite Hl in R. destruct R as [_ St].
      destruct (front_step E ro EOK (cs m) g' f' t x Wo Lm) as [[Bk _]|(_ & c' & St' & Mv)]; [|rewrite St in St'; injection St' as ->; exact Mv].
      exfalso. destruct (grow_loops E (wc_op x) Gr) as (kk & Hkk & _). rewrite Hp, Hkk in Bk. destruct Bk.
    - destruct (growth_ends E ro l0 c0 m0 cs ls X N F b n t x Np Lk Gr Bb) as (m' & Hm' & [G _]). eauto.
  Qed.
End Endless.

(** ** Examples *)
Definition waitsb (c : wcfg nat) (t : nat) : bool :=
  match wlookup t (w_run c) with
  | Some x => match wc_prog x with
              | Spin a again _ => match wexec ex (wc_id x) a (newest a (w_mem c)) (w_mem c) (w_view c t) with WDone y _ _ => again y | _ => false end
              | _ => false
              end
  | None => false
  end.
Lemma waitsb_waits c t : waitsb c t = true -> waits ex c t.
Proof.
  unfold waitsb, WFair.waits, front. simpl. unfold wstep_thread. destruct (wlookup t (w_run c)) as [x|]; [|discriminate].
  destruct (wc_prog x); try discriminate. destruct (wexec ex (wc_id x) a _ _ _); try discriminate. now intros ->.
Qed.
Definition insideb (c : wcfg nat) (t id : nat) : bool := match wlookup t (w_run c) with Some x => wc_id x =? id | None => false end.
Definition op_of (c : wcfg nat) (t : nat) : op nat := match wlookup t (w_run c) with Some x => wc_op x | None => OLen end.
Lemma insideb_in c t id : insideb c t id = true -> inside c t id (op_of c t).
Proof. unfold insideb, op_of, WFair.inside. destruct (wlookup t (w_run c)) as [x|]; [|discriminate]. intros H. apply Nat.eqb_eq in H. eauto. Qed.
Definition calmb (c : wcfg nat) : bool := match w_panics c with [] => true | _ => false end.
Lemma calmb_no c : calmb c = true -> no_overrun c.
Proof. unfold calmb, no_overrun. destruct (w_panics c); [intros _ id o m []|discriminate]. Qed.
Definition wbegin (t : nat) (o : op nat) (n : nat) : list (witem nat) := [Wl (WInv t o 0); Go t n].

(** A thread that stops in the middle of [get_cloned] blocks a [set] of the same element; the vector is
    not lock-free under release/acquire either. *)
Definition wl1 := wfinal false [5] (wcalls 0 (OGet 0) 0 ++ wbegin 1 (OGetCloned 0) 4 ++ [Wl (WInv 2 (OElem 0 (ESet 9)) 0)]).
Theorem C48_lock_free_refuted : wexecution ex false [5] 2 8 wl1 /\
  exists u id, u <> 2 /\ inside wl1 2 id (OElem 0 (ESet 9)) /\ forall c', stalls ex false u 2 wl1 c' -> inside c' 2 id (OElem 0 (ESet 9)).
Proof.
  assert (X : wexecution ex false [5] 2 8 wl1) by (apply wex_execution; vm_compute; reflexivity). split; [exact X|].
  assert (I : inside wl1 2 (w_next wl1 - 1) (OElem 0 (ESet 9))).
  { assert (Q : insideb wl1 2 (w_next wl1 - 1) = true) by (vm_compute; reflexivity). apply insideb_in in Q. assert (Ho : op_of wl1 2 = OElem 0 (ESet 9)) by (vm_compute; reflexivity). now rewrite Ho in Q. }
  destruct (C48_stalled ex false [5] 2 8 wl1 X 2 _ _ (waitsb_waits wl1 2 ltac:(vm_compute; reflexivity)) I eq_refl (or_introl eq_refl)) as (u & id' & o' & Ne & _ & H).
  exists u, (w_next wl1 - 1). split; [exact Ne|]. split; [exact I|exact H].
Qed.
(** A thread that stops in [push], after it got the first position beyond the capacity, blocks every later
    [push]. *)
Definition wl2 := wfinal false [5] (wcalls 0 (OPush 6) 0 ++ wbegin 1 (OPush 7) 1 ++ wbegin 2 (OPush 8) 5).
Theorem C48_push_lock_free_refuted : wexecution ex false [5] 2 8 wl2 /\
  exists u id, u <> 2 /\ inside wl2 2 id (OPush 8) /\ forall c', stalls ex false u 2 wl2 c' -> inside c' 2 id (OPush 8).
Proof.
  assert (X : wexecution ex false [5] 2 8 wl2) by (apply wex_execution; vm_compute; reflexivity). split; [exact X|].
  assert (I : inside wl2 2 (w_next wl2 - 1) (OPush 8)).
  { assert (Q : insideb wl2 2 (w_next wl2 - 1) = true) by (vm_compute; reflexivity). apply insideb_in in Q. assert (Ho : op_of wl2 2 = OPush 8) by (vm_compute; reflexivity). now rewrite Ho in Q. }
  destruct (C48_stalled ex false [5] 2 8 wl2 X 2 _ _ (waitsb_waits wl2 2 ltac:(vm_compute; reflexivity)) I eq_refl) as (u & id' & o' & Ne & _ & H).
  { right. apply calmb_no. vm_compute. reflexivity. }
  exists u, (w_next wl2 - 1). split; [exact Ne|]. split; [exact I|exact H].
Qed.
(** The other two cases of [C48_waits] occur: a position abandoned at the capacity, and [swap(0,0)]. *)
Definition wl3 := wfinal false [5] (wcalls 0 (OPush 6) 0 ++ wcalls 1 (OPushFor (fun _ => None)) 0 ++ wbegin 2 (OPush 8) 5).
Example C48_abandoned : wexecution ex false [5] 2 8 wl3 /\ waits ex wl3 2 /\ calmb wl3 = false /\ length (w_run wl3) = 1.
Proof.
  split; [apply wex_execution; vm_compute; reflexivity|]. split; [apply waitsb_waits; vm_compute; reflexivity|]. split; vm_compute; reflexivity.
Qed.
Definition wl4 := wfinal false [5] (wbegin 2 (OSwap 0 0) 20).
Example C48_self : wexecution ex false [5] 2 8 wl4 /\ waits ex wl4 2 /\ length (w_run wl4) = 1.
Proof. split; [apply wex_execution; vm_compute; reflexivity|]. split; [apply waitsb_waits; vm_compute; reflexivity|]. vm_compute; reflexivity. Qed.

(** Visibility is needed: a [push] that goes on reading the old capacity does not end, although all
    the other calls have ended and its thread makes a step in every tick. *)
Definition wv1 := wfinal false [5] (wcalls 0 (OPush 6) 0 ++ wbegin 1 (OPush 7) 1 ++ wbegin 2 (OPush 8) 5 ++ [Go 1 100]).
Definition staleb (c : wcfg nat) (t k : nat) : bool :=
  match wlookup t (w_run c) with
  | Some x => match wc_prog x with
              | Spin a again _ => match wexec ex (wc_id x) a k (w_mem c) (w_view c t) with WDone y _ _ => again y | _ => false end
              | _ => false
              end
  | None => false
  end.
Lemma staleb_stays c t k : staleb c t k = true -> wstep ex c (WStep t k) = WNext c.
Proof.
  unfold staleb. simpl. unfold wstep_thread. destruct (wlookup t (w_run c)) as [x|]; [|discriminate].
  destruct (wc_prog x); try discriminate. destruct (wexec ex (wc_id x) a _ _ _); try discriminate. now intros ->.
Qed.
Lemma not_waiting c t id o : wexecution ex false [5] 2 8 c -> inside c t id o -> waitsb c t = false -> goes_on ex c t.
Proof.
  intros X (x & Lk & _) Nw. destruct (execution_world ex false _ _ _ _ X) as (EOK & g & f & Wo).
  destruct (front_step ex false EOK c g f t x Wo Lk) as [[B W]|(_ & c' & St & Mv)]; [exfalso|exists c'; split; [exact St|now apply moved_ne in Mv]].
  unfold waitsb in Nw. unfold WFair.waits, front in W. simpl in W. unfold wstep_thread in W. rewrite Lk in *. destruct (wc_prog x) as [r|m|a k|a ag k] eqn:Hp; try contradiction.
  destruct (wexec ex (wc_id x) a _ _ _) as [y M tv| |]; try discriminate. rewrite Nw in W. injection W as W. apply (f_equal (fun d => wlookup t (w_run d))) in W. simpl in W.
  rewrite Nat.eqb_refl, Lk in W. injection W as W. apply (f_equal wc_prog) in W. simpl in W. pose proof (no_loop (wc_prog x)) as NL. rewrite Hp in NL. now apply (NL y); rewrite <- Hp.
Qed.
Lemma stale_forever c t k id o : wexecution ex false [5] 2 8 c -> inside c t id o -> map fst (w_run c) = [t] -> staleb c t k = true -> waitsb c t = false -> calmb c = true ->
  exists cs ls, wexecution ex false [5] 2 8 (cs 0) /\ endless ex (wclient ex false) cs ls /\
    (forall n t x, wlookup t (w_run (cs n)) = Some x -> exists m k, n <= m /\ ls m = Some (WStep t k)) /\ (forall n, no_overrun (cs n)) /\
    exists id, forall n, inside (cs n) t id o /\ goes_on ex (cs n) t.
Proof.
  intros X In1 R St Nw Cb. exists (fun _ => c), (fun _ => Some (WStep t k)). split; [exact X|]. split; [|split; [|split]].
  - intros n. split; [exact I|]. now apply staleb_stays.
  - intros n u x Lk. exists n, k. split; [lia|]. apply look_ts in Lk. rewrite R in Lk. destruct Lk as [<-|[]]. reflexivity.
  - intros n. now apply calmb_no.
  - exists id. intros n. split; [exact In1|]. eapply not_waiting; eauto.
Qed.
Theorem C48_visibility_needed : exists cs ls, wexecution ex false [5] 2 8 (cs 0) /\ endless ex (wclient ex false) cs ls /\
  (forall n t x, wlookup t (w_run (cs n)) = Some x -> exists m k, n <= m /\ ls m = Some (WStep t k)) /\ (forall n, no_overrun (cs n)) /\
  exists id, forall n, inside (cs n) 2 id (OPush 8) /\ goes_on ex (cs n) 2.
Proof.
  assert (I2 : inside wv1 2 (w_next wv1 - 1) (OPush 8)).
  { assert (Q : insideb wv1 2 (w_next wv1 - 1) = true) by (vm_compute; reflexivity). apply insideb_in in Q. assert (Ho : op_of wv1 2 = OPush 8) by (vm_compute; reflexivity). now rewrite Ho in Q. }
  refine (stale_forever wv1 2 0 _ _ _ I2 _ _ _ _); [apply wex_execution|..]; vm_compute; reflexivity.
Qed.

(** Running calls, one of which waits, none of which can wait while it holds an element. *)
Definition opsb (f : op nat -> bool) (c : wcfg nat) : bool := forallb (fun tx => f (wc_op (snd tx))) (w_run c).
Lemma opsb_all f c : opsb f c = true -> forall u id o, inside c u id o -> f o = true.
Proof.
  unfold opsb, WFair.inside. rewrite forallb_forall. intros H u id o (x & Lk & _ & <-). apply (H (u, x)).
  revert Lk. induction (w_run c) as [|[v y] r IH]; simpl; [discriminate|]. destruct (Nat.eqb_spec u v) as [->|]; [intros [= ->]; now left|]. intros Lk. right. apply IH; [|exact Lk]. intros z Hz. apply H. now right.
Qed.
Example C48_progress_example : wexecution ex false [5] 2 8 wl1 /\ waits ex wl1 2 /\ no_overrun wl1 /\ (forall u id o, inside wl1 u id o -> swaps o && hspin ex = false).
Proof.
  split; [apply wex_execution; vm_compute; reflexivity|]. split; [apply waitsb_waits; vm_compute; reflexivity|]. split; [apply calmb_no; vm_compute; reflexivity|].
  intros u id o H. apply negb_true_iff. apply (opsb_all (fun o => negb (swaps o && hspin ex)) wl1 ltac:(vm_compute; reflexivity) u id o H).
Qed.
(** A running [push], alone. *)
Definition wa := wfinal false [5] (wcalls 0 (OPush 6) 0 ++ wbegin 1 (OPush 7) 3).
Example C48_alone_example : wexecution ex false [5] 2 8 wa /\ inside wa 1 (w_next wa - 1) (OPush 7) /\ (forall u id o, inside wa u id o -> u = 1) /\ no_overrun wa.
Proof.
  split; [apply wex_execution; vm_compute; reflexivity|]. split.
  { assert (Q : insideb wa 1 (w_next wa - 1) = true) by (vm_compute; reflexivity). apply insideb_in in Q. assert (Ho : op_of wa 1 = OPush 7) by (vm_compute; reflexivity). now rewrite Ho in Q. }
  split; [|apply calmb_no; vm_compute; reflexivity]. intros u id o (x & Lk & _). apply look_ts in Lk. assert (R : map fst (w_run wa) = [1]) by (vm_compute; reflexivity). rewrite R in Lk. destruct Lk as [<-|[]]. reflexivity.
Qed.

(** Scripts whose labels depend on the configuration: [inl t] is a step of [t] that reads the newest
    message. *)
Definition script := list (nat + wlabel nat).
Definition label_at (c : wcfg nat) (i : nat + wlabel nat) : wlabel nat := match i with inl t => WStep t (front c t) | inr l => l end.
Section Script.
  Context (ro : bool).
  Fixpoint follow (c : wcfg nat) (s : script) : option (wcfg nat) :=
    match s with [] => Some c | i :: s' => match wgo ex ro c (label_at c i) with Some d => follow d s' | None => None end end.
  Fixpoint labels (c : wcfg nat) (s : script) : list (wlabel nat) :=
    match s with [] => [] | i :: s' => label_at c i :: match wgo ex ro c (label_at c i) with Some d => labels d s' | None => [] end end.
  (** how many of the steps of [t] are not rounds of a busy-wait *)
  Fixpoint worked (t : nat) (c : wcfg nat) (s : script) : nat :=
    match s with
    | [] => 0
    | i :: s' => (match label_at c i with WStep u k => if (u =? t) && negb (staleb c t k) then 1 else 0 | _ => 0 end) +
                 match wgo ex ro c (label_at c i) with Some d => worked t d s' | None => 0 end
    end.
  Lemma wgo_inv c l d : wgo ex ro c l = Some d -> wclient ex ro c l /\ wstep ex c l = WNext d.
  Proof.
    unfold wgo. destruct (wokb ex ro c l) eqn:O; [|discriminate]. destruct (wstep ex c l) eqn:S; try discriminate. intros [= <-]. split; [now apply wokb_client|reflexivity].
  Qed.
  Lemma follow_path s : forall c d, follow c s = Some d -> path ex (wclient ex ro) c (labels c s) d.
  Proof.
    induction s as [|i s IH]; intros c d; cbn [follow labels WFair.path]; [now intros [= <-]|]. destruct (wgo ex ro c (label_at c i)) as [e|] eqn:G; [|discriminate].
    apply wgo_inv in G. destruct G as [G1 G2]. intros H. split; [exact G1|]. exists e. split; [exact G2|]. now apply IH.
  Qed.
  Lemma moving c t k d : NI c -> wstep ex c (WStep t k) = WNext d -> staleb c t k = false -> d <> c.
  Proof.
    intros N St Nw ->. unfold staleb in Nw. simpl in St. unfold wstep_thread in St. destruct (wlookup t (w_run c)) as [x|] eqn:Lk; [|discriminate].
    assert (K : forall d', (wlookup t (w_run d') = None \/ exists q, wlookup t (w_run d') = Some (WCall (wc_id x) (wc_op x) (wc_from x) q) /\ child q (wc_prog x)) -> d' = c -> False).
    { intros d' [H|(q & H & C)] ->; rewrite Lk in H; [discriminate|]. injection H as H. apply (f_equal wc_prog) in H. simpl in H. rewrite H in C. pose proof (no_loop q) as NL.
      destruct q as [r'|m'|a kk|a ag kk]; simpl in C; try contradiction; destruct C as (y & e); apply (NL y); symmetry; exact e. }
    destruct (wc_prog x) as [r|m|a kk|a ag kk] eqn:Hp.
    - injection St as St. revert St. apply K. left. simpl. apply wlook_same, N.
    - injection St as St. revert St. apply K. left. simpl. apply wlook_same, N.
    - destruct (wexec ex (wc_id x) a k (w_mem c) (w_view c t)) as [y M tv| |]; try discriminate. injection St as St. revert St. apply K. right. exists (kk y). simpl. rewrite Nat.eqb_refl. split; [reflexivity|now exists y].
    - destruct (wexec ex (wc_id x) a k (w_mem c) (w_view c t)) as [y M tv| |]; try discriminate. rewrite Nw in St. injection St as St. revert St. apply K. right. exists (kk y). simpl. rewrite Nat.eqb_refl. split; [reflexivity|now exists y].
  Qed.
  Lemma follow_work l0 t s : forall c d, wexecution ex ro l0 2 8 c -> follow c s = Some d -> work ex (wclient ex ro) t c (worked t c s) d.
  Proof.
    induction s as [|i s IH]; intros c d X; cbn [follow worked]; [intros [= <-]; apply work_start|]. destruct (wgo ex ro c (label_at c i)) as [e|] eqn:G; [|discriminate].
    apply wgo_inv in G. destruct G as [G1 G2]. intros H. pose proof (execution_step ex ro l0 2 8 c _ e X G1 G2) as X'. specialize (IH e d X' H).
    destruct (label_at c i) as [u o from|u k|u w| |n] eqn:L; cbn [plus]; try (eapply work_other; [exact G1|exact G2|left; discriminate|exact IH]).
    destruct (Nat.eqb_spec u t) as [->|Ne]; cbn [andb plus]; [|eapply work_other; [exact G1|exact G2|left; congruence|exact IH]].
    destruct (staleb c t k) eqn:B; cbn [negb plus].
    - eapply work_other; [exact G1|exact G2|right|exact IH]. apply staleb_stays in B. congruence.
    - eapply work_own; [exact G1|exact G2| |exact IH]. eapply moving; eauto. eapply exec_ni; eauto.
  Qed.

  (** A script followed by idling. *)
  Context (l0 : list nat) (c : wcfg nat) (s : script).
  Definition then_idle (n : nat) : wcfg nat := match follow c (firstn n s) with Some d => d | None => c end.
  Definition idle_label (n : nat) : option (wlabel nat) := match nth_error s n with Some i => Some (label_at (then_idle n) i) | None => None end.
  Definition fairb : bool :=
    match follow c s with Some _ => true | None => false end &&
    forallb (fun n => forallb (fun t => existsb (fun i => match i with inl u => u =? t | inr _ => false end) (skipn n s)) (map fst (w_run (then_idle n)))) (seq 0 (S (length s))).
  Lemma follow_app s1 s2 : forall c, follow c (s1 ++ s2) = match follow c s1 with Some d => follow d s2 | None => None end.
  Proof. induction s1 as [|i s1 IH]; intros c'; cbn [follow app]; [reflexivity|]. destruct (wgo ex ro c' (label_at c' i)); auto. Qed.
  Lemma firstn_S (A : Type) n (l : list A) x : nth_error l n = Some x -> firstn (S n) l = firstn n l ++ [x].
  Proof. revert l. induction n as [|n IH]; intros [|y l]; simpl; try discriminate; [now intros [= ->]|]. intros H. f_equal. now apply IH. Qed.
  Lemma idle_fair : fairb = true -> then_idle 0 = c /\ endless ex (wclient ex ro) then_idle idle_label /\ fair then_idle idle_label.
  Proof.
    unfold fairb. intros F. apply andb_true_iff in F. destruct F as [F1 F2]. destruct (follow c s) as [d|] eqn:G; [clear F1|discriminate].
    split; [reflexivity|]. split.
    - intros n. unfold tick, idle_label. destruct (nth_error s n) as [i|] eqn:L.
      + unfold then_idle. rewrite (firstn_S _ n s i L). rewrite <- (firstn_skipn (S n) s), (firstn_S _ n s i L), follow_app, follow_app in G.
        rewrite follow_app. destruct (follow c (firstn n s)) as [e|]; [|discriminate]. cbn [follow] in *.
        destruct (wgo ex ro e (label_at e i)) as [e'|] eqn:W; [|discriminate]. now apply wgo_inv.
      + apply nth_error_None in L. unfold then_idle. now rewrite !firstn_all2 by lia.
    - intros n t x Lk. apply look_ts in Lk. rewrite forallb_forall in F2.
      assert (Q : exists k, k <= length s /\ then_idle n = then_idle k /\ (k = n \/ k = length s)).
      { destruct (le_lt_dec n (length s)); [exists n; auto|]. exists (length s). split; [lia|]. split; [|auto]. unfold then_idle. now rewrite !firstn_all2 by lia. }
      destruct Q as (k & Hk & Hn & Q). specialize (F2 k ltac:(apply in_seq; lia)). rewrite <- Hn, forallb_forall in F2. specialize (F2 _ Lk). simpl in F2.
      apply existsb_exists in F2. destruct F2 as (i & Hin & Hi). destruct i as [u|]; [|discriminate]. apply Nat.eqb_eq in Hi. subst u.
      destruct Q as [->| ->]; [|rewrite skipn_all in Hin; contradiction].
      apply In_nth_error in Hin. destruct Hin as (j & Hj). exists (n + j). split; [lia|]. unfold idle_label.
      assert (Hs : nth_error s (n + j) = Some (inl t)); [|now rewrite Hs].
      rewrite <- Hj. rewrite <- (firstn_skipn n s) at 1. rewrite nth_error_app2; rewrite firstn_length_le by lia; [f_equal; lia|lia].
  Qed.
  Lemma idle_calm : forallb (fun n => calmb (then_idle n)) (seq 0 (S (length s))) = true -> forall n, no_overrun (then_idle n).
  Proof.
    rewrite forallb_forall. intros H n. apply calmb_no. destruct (le_lt_dec n (length s)) as [L|L]; [apply H, in_seq; lia|].
    replace (then_idle n) with (then_idle (length s)); [apply H, in_seq; lia|]. unfold then_idle. now rewrite !firstn_all2 by lia.
  Qed.
End Script.

(** [get] among other calls; it reads the oldest messages it can, and its thread goes on with further
    calls. *)
Definition wf := wfinal false [5] (wbegin 2 (OPush 6) 2 ++ wbegin 1 (OGet 0) 0).
Definition wf_script : script := repeat (inr (WStep 1 0)) 7 ++ concat (repeat [inr (WInv 1 OCap 0); inl 1; inl 1] 36) ++ [inl 2].
Lemma wait_free_ex c t id o ro s : wexecution ex ro [5] 2 8 c -> insideb c t id = true -> op_of c t = o ->
  match follow ro c s with Some _ => true | None => false end && (cost o (m_max (w_mem c)) <=? steps_of t (labels ro c s)) = true ->
  wexecution ex ro [5] 2 8 c /\ inside c t id o /\ exists ls c', path ex (wclient ex ro) c ls c' /\ cost o (m_max (w_mem c)) <= steps_of t ls.
Proof.
  intros X I1 Ho Q. apply andb_true_iff in Q. destruct Q as [Q1 Q2]. apply Nat.leb_le in Q2. split; [exact X|]. split; [rewrite <- Ho; now apply insideb_in|].
  destruct (follow ro c s) as [d|] eqn:G; [|discriminate]. exists (labels ro c s), d. split; [now apply follow_path|exact Q2].
Qed.
Example C48_wait_free_example : wexecution ex false [5] 2 8 wf /\ inside wf 1 (w_next wf - 1) (OGet 0) /\
  exists ls c', path ex (wclient ex false) wf ls c' /\ cost (V:=nat) (OGet 0) (m_max (w_mem wf)) <= steps_of 1 ls.
Proof. apply (wait_free_ex wf 1 _ _ false wf_script); [apply wex_execution|..]; vm_compute; reflexivity. Qed.

(** [set] that waits for another thread; after that it goes on, and so does its thread. *)
Definition ww_script : script := [inl 2; inl 2; inl 1; inl 1; inl 2; inl 1] ++ repeat (inl 2) 5 ++ concat (repeat [inr (WInv 2 OCap 0); inl 2; inl 2] 36).
Lemma work_ex c t id o ro s : wexecution ex ro [5] 2 8 c -> insideb c t id = true -> op_of c t = o -> waitsb c t = true ->
  match follow ro c s with Some _ => true | None => false end && (cost o (m_max (w_mem c)) <=? worked ro t c s) = true ->
  wexecution ex ro [5] 2 8 c /\ inside c t id o /\ waits ex c t /\ exists c' k, work ex (wclient ex ro) t c k c' /\ cost o (m_max (w_mem c)) <= k.
Proof.
  intros X I1 Ho W Q. apply andb_true_iff in Q. destruct Q as [Q1 Q2]. apply Nat.leb_le in Q2. split; [exact X|]. split; [rewrite <- Ho; now apply insideb_in|]. split; [now apply waitsb_waits|].
  destruct (follow ro c s) as [d|] eqn:G; [|discriminate]. exists d, (worked ro t c s). split; [eapply follow_work; eauto|exact Q2].
Qed.
Example C48_work_example : wexecution ex false [5] 2 8 wl1 /\ inside wl1 2 (w_next wl1 - 1) (OElem 0 (ESet 9)) /\ waits ex wl1 2 /\
  exists c' k, work ex (wclient ex false) 2 wl1 k c' /\ cost (OElem 0 (ESet 9)) (m_max (w_mem wl1)) <= k.
Proof. apply (work_ex wl1 2 _ _ false ww_script); [apply wex_execution|..]; vm_compute; reflexivity. Qed.

(** A fair execution without new calls, and one with new calls in which a growth call waits. *)
Definition fr_script : script := [inl 2; inl 1; inl 2; inl 1; inl 1; inl 1; inl 2; inl 2; inl 2; inl 2; inl 2].
Lemma fair_ex c t id o ro s : wexecution ex ro [5] 2 8 c -> insideb c t id = true -> op_of c t = o -> waitsb c t = true -> fairb ro c s = true ->
  forallb (fun n => calmb (then_idle ro c s n)) (seq 0 (S (length s))) = true ->
  exists cs, wexecution ex ro [5] 2 8 (cs 0) /\ endless ex (wclient ex ro) cs (idle_label ro c s) /\ fair cs (idle_label ro c s) /\
    (forall n, no_overrun (cs n)) /\ cs 0 = c /\ inside (cs 0) t id o /\ waits ex (cs 0) t.
Proof.
  intros X I1 Ho W F C. destruct (idle_fair ro c s F) as (Z & En & Fa). exists (then_idle ro c s). rewrite Z. split; [exact X|]. split; [exact En|]. split; [exact Fa|].
  split; [now apply idle_calm|]. split; [reflexivity|]. split; [rewrite <- Ho; now apply insideb_in|now apply waitsb_waits].
Qed.
Lemma no_inv ro c s : forallb (fun i => match i with inl _ => true | inr _ => false end) s = true -> forall n t o from, idle_label ro c s n <> Some (WInv t o from).
Proof.
  rewrite forallb_forall. intros H n t o from. unfold idle_label. destruct (nth_error s n) as [[u|l]|] eqn:Q; try discriminate. apply nth_error_In, H in Q. discriminate.
Qed.
Example C48_fair_example : exists cs ls, wexecution ex false [5] 2 8 (cs 0) /\ endless ex (wclient ex false) cs ls /\ fair cs ls /\
  (forall n, no_overrun (cs n)) /\ (forall n t o from, ls n <> Some (WInv t o from)) /\ (forall u id o, inside (cs 0) u id o -> swaps o && hspin ex = false) /\ waits ex (cs 0) 2.
Proof.
  destruct (fair_ex wl1 2 (w_next wl1 - 1) (OElem 0 (ESet 9)) false fr_script) as (cs & H1 & H2 & H3 & H4 & H5 & _ & H6); [apply wex_execution; vm_compute; reflexivity|vm_compute; reflexivity..|].
  exists cs, (idle_label false wl1 fr_script). split; [exact H1|]. split; [exact H2|]. split; [exact H3|]. split; [exact H4|]. split; [|split; [|exact H6]].
  - apply no_inv. reflexivity.
  - rewrite H5. apply C48_progress_example.
Qed.
Definition fg_script : script := [inl 2; inr (WInv 3 (OPush 9) 0); inl 3; inl 3; inl 1; inr (WStep 2 0)] ++ repeat (inl 1) 7 ++ [inr (WStep 2 0)] ++ repeat (inl 2) 5 ++ repeat (inl 3) 7.
Example C48_growth_example : exists cs ls, wexecution ex false [5] 2 8 (cs 0) /\ endless ex (wclient ex false) cs ls /\ fair cs ls /\
  (forall n, no_overrun (cs n)) /\ inside (cs 0) 2 (w_next wl2 - 1) (OPush 8) /\ waits ex (cs 0) 2.
Proof.
  destruct (fair_ex wl2 2 (w_next wl2 - 1) (OPush 8) false fg_script) as (cs & H1 & H2 & H3 & H4 & H5 & H6 & H7); [apply wex_execution; vm_compute; reflexivity|vm_compute; reflexivity..|].
  exists cs, (idle_label false wl2 fg_script). repeat (split; [assumption|]). assumption.
Qed.

Print Assumptions C48_waits.
Print Assumptions C48_stalled.
Print Assumptions C48_alone.
Print Assumptions C48_progress.
Print Assumptions C48_all_end.
Print Assumptions C48_no_wait.
Print Assumptions C48_work.
Print Assumptions C48_wait_free.
Print Assumptions C48_fair.
Print Assumptions C48_growth.
Print Assumptions C48_lock_free_refuted.
Print Assumptions C48_push_lock_free_refuted.
Print Assumptions C48_visibility_needed.
