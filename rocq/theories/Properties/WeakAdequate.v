(** * C49: everything that can happen in an interleaving of the accesses can happen under release/acquire.

    The interleaving machine ([Model/Machine.v]) is the simpler one; the view machine ([RA/Weak.v]) has
    more behaviours, not other ones.  So what is refuted for interleavings is refuted under release/acquire,
    and the theorems about the view machine are not true because it does too little. *)

From Coq Require Import List Arith Bool Lia.
From Verif.Model Require Import Prog Mem Deps State Elem Vec Excl Machine.
From Verif Require Import Client Spec.
From Verif Require Fair.
From Verif.Logic Require Import Shape Clients Hist Facts Live.
From Verif.RA Require Import Weak WFair WTrace WSimul.
From Verif.Properties Require Import C33 Examples.
Require Verif.Properties.Live Verif.Properties.Weak Verif.Properties.WeakLinear Verif.Properties.Linear Verif.Properties.Length.
Import ListNotations.

Section C49.
  Context {V : Type} (E : env V) (ro nl : bool) (l0 : list V) (c0 m0 : nat).

  (** Every execution of the interleaving machine has a counterpart: an execution of the view machine from the
      same vector, without synchronisation outside of the vector, in which every load reads the newest
      message, with the same calls, results, panics, reservations, reads, writes and exchanges, in the same
      order, the same running calls, and the same values. *)
  Theorem C49_histories c : execution E ro nl l0 c0 m0 c ->
    exists w h cur, plain_trace E ro (wstart l0 c0 m0) w h cur /\ whistory E ro l0 c0 m0 w h /\ visible h = visible (hist c) /\
      (forall t k o, inside w t k o <-> exists id, open (hist c) id t o /\ number (hist c) id = k) /\
      (~ overrun (hist c) -> no_overrun w) /\
      (forall i, wv (m_slots (w_mem w) i) = sval (slots (sh c) i) /\ state w i = sst (slots (sh c) i)).
  Proof.
    intros X. pose proof X as (A1 & A2 & A3 & A4 & R). destruct (sim_reach E ro nl l0 c0 m0 c A1 A2 A3 A4 R) as (w & h & cur & P & Xw & S & Vs).
    exists w, h, cur. split; [exact P|]. split; [|split; [exact Vs|split; [exact (sim_open E ro nl l0 c0 m0 c w X S)|split; [exact (sim_calm E ro nl l0 c0 m0 c w X S)|]]]].
    - do 4 (split; [assumption|]). exists cur. now apply plain_wtrace.
    - intros i. destruct (ms_slots _ _ (sm_mem _ _ _ S) i) as [(m & H1 & H2) H3]. split; [exact H3|]. unfold state. now rewrite H1.
  Qed.

  (** So has every endless execution, fair ones a fair one: in tick [n] the counterpart makes the step that
      corresponds, and the same calls are running. *)
  Theorem C49_endless cs ls : execution E ro nl l0 c0 m0 (cs 0) -> Fair.endless E (client E ro nl (length l0)) cs ls ->
    exists ws ls', wexecution E ro l0 c0 m0 (ws 0) /\ endless E (wclient E ro) ws ls' /\ (Fair.fair cs ls -> fair ws ls') /\
      (forall n l, ls' n = Some l -> plain (ws n) l) /\
      (forall n t k o, inside (ws n) t k o <-> exists id, open (hist (cs n)) id t o /\ number (hist (cs n)) id = k) /\
      (forall n, ~ overrun (hist (cs n)) -> no_overrun (ws n)) /\
      (forall n, exists h, hist (cs (S n)) = hist (cs n) ++ h /\
         forall j cur, visible (match ls' n with Some l => wevents E j cur (ws n) l | None => [] end) = visible h).
  Proof.
    intros X N. pose proof X as (A1 & A2 & A3 & A4 & R0).
    destruct (sim_reach E ro nl l0 c0 m0 _ A1 A2 A3 A4 R0) as (w & h & cur & P & Xw & S & Vs).
    pose proof (mirror_ok E ro nl l0 c0 m0 cs ls A1 A2 A3 A4 R0 N w Xw S) as K.
    exists (mirror E ls w), (mirror_label E ls w). split; [exact Xw|]. split; [intros n; apply K|].
    split; [exact (mirror_fair E ro nl l0 c0 m0 cs ls A1 A2 A3 A4 R0 N w Xw S)|]. split; [|split; [|split]].
    - intros n l. unfold mirror_label. destruct (ls n); [|discriminate]. intros [= <-]. apply follow_plain.
    - intros n. apply (sim_open E ro nl l0 c0 m0); [|apply K]. repeat (split; [assumption|]). exact (cs_reach E ro nl l0 c0 m0 cs ls R0 N n).
    - intros n. apply (sim_calm E ro nl l0 c0 m0); [|apply K]. repeat (split; [assumption|]). exact (cs_reach E ro nl l0 c0 m0 cs ls R0 N n).
    - intros n. apply K.
  Qed.
End C49.

(** ** Calls that lock elements can starve under release/acquire, even if all stores become visible at once. *)
Theorem C49_starvation_refuted : exists (ws : nat -> wcfg nat) ls, wexecution ex false [5] 2 8 (ws 0) /\ endless ex (wclient ex false) ws ls /\ fair ws ls /\
  (forall n l, ls n = Some l -> plain (ws n) l) /\ (forall n, no_overrun (ws n)) /\
  exists id, forall n, inside (ws n) 2 id (OElem 0 (ESet 9)).
Proof.
  destruct (C49_endless ex false false [5] 2 8 Live.vs Live.vs_labels (Live.vs_execution 0) Live.vs_endless) as (ws & ls & X & N & F & P & O & G & _).
  exists ws, ls. split; [exact X|]. split; [exact N|]. split; [exact (F Live.vs_fair)|]. split; [exact P|]. split; [intros n; apply G, no_over, Live.vs_no_pan|].
  exists (number (hist (Live.vs 0)) 5). intros n. apply O. exists 5. split; [apply Live.vs_open|].
  destruct (hist_at ex false false [5] Live.vs Live.vs_labels Live.vs_endless 0 n ltac:(lia)) as (h' & ->). apply number_app. vm_compute. lia.
Qed.

(** ** The view machine has more histories: a [get_cloned] of another thread may miss a push that has
    returned, which no interleaving allows (C13). *)
Definition stale : list (event nat) :=
  [EInv 0 1 (OPush 7); EAcc 0 1 (AcAdd 0 1); EAcc 0 1 (AcInit 0 7); ERet 0 1 (RNat 0); EInv 4 2 (OGetCloned 0); ERet 4 2 (ROptVal None)].
Lemma visible_cut {V} (h : list (event V)) : forall l1 s l2, visible h = l1 ++ s :: l2 -> exists h1 e h2, h = h1 ++ e :: h2 /\ visible h1 = l1 /\ sight e = [s] /\ visible h2 = l2.
Proof.
  induction h as [|e h IH]; intros l1 s l2; [destruct l1; discriminate|]. cbn [visible flat_map]. fold (visible h).
  assert (L : sight e = [] \/ exists x, sight e = [x]) by (destruct e; simpl; eauto; destruct (common a); eauto).
  destruct L as [L|(x & L)]; rewrite L; simpl.
  - intros H. destruct (IH _ _ _ H) as (h1 & e' & h2 & -> & H1 & H2). exists (e :: h1), e', h2. split; [reflexivity|]. split; [|exact H2]. unfold visible in *. simpl. now rewrite L.
  - destruct l1 as [|y l1]; simpl; intros [= -> H].
    + exists [], e, h. auto.
    + destruct (IH _ _ _ H) as (h1 & e' & h2 & -> & H1 & H2). exists (e :: h1), e', h2. split; [reflexivity|]. split; [|exact H2]. unfold visible in *. simpl. now rewrite L, H1.
Qed.
Lemma visible_called {V} (h : list (event V)) k id t o : nth_error h k = Some (EInv id t o) -> In (Called t o) (visible h).
Proof. intros H. apply nth_error_In in H. apply in_flat_map. exists (EInv id t o). split; [exact H|simpl; auto]. Qed.
Theorem C49_converse_refuted : (exists w, whistory ex false [] 2 8 w stale) /\
  forall c, execution ex false false [] 2 8 c -> visible (hist c) <> visible stale.
Proof.
  split.
  { exists (WeakLinear.hcfg false [] Weak.ex2). replace stale with (WeakLinear.hevs false [] Weak.ex2) by (vm_compute; reflexivity). apply WeakLinear.hex_history. vm_compute. reflexivity. }
  intros c X H. change (visible stale) with ([Called 1 (OPush 7); Did 1 (AcAdd 0 1)] ++ Returned 1 (RNat 0) :: [Called 2 (OGetCloned 0); Returned 2 (ROptVal None)]) in H.
  destruct (visible_cut _ _ _ _ H) as (h1 & e & h2 & Hh & V1 & Se & V2).
  destruct (visible_cut h2 [] (Called 2 (OGetCloned 0)) [Returned 2 (ROptVal None)] V2) as (h3 & e3 & h4 & Hh2 & V3 & S3 & V4).
  destruct (visible_cut h4 [] (Returned 2 (ROptVal None)) [] V4) as (h5 & e5 & h6 & Hh4 & V5 & S5 & V6).
  destruct (execution_expl _ _ _ _ _ _ c X) as (snap & Ex & _).
  assert (In2 : forall k id t o, nth_error (hist c) k = Some (EInv id t o) -> (t = 1 /\ o = OPush 7) \/ (t = 2 /\ o = OGetCloned 0)).
  { intros k id t o Hk. apply visible_called in Hk. rewrite H in Hk. simpl in Hk. destruct Hk as [Hk|[Hk|[Hk|[Hk|[Hk|[]]]]]]; inversion Hk; auto. }
  destruct e as [| id t v | | id t a | |]; try discriminate Se; [|simpl in Se; destruct (common a); discriminate]. injection Se as -> ->.
  destruct e5 as [| id5 t v | | id5 t a | |]; try discriminate S5; [|simpl in S5; destruct (common a); discriminate]. injection S5 as -> ->.
  assert (Hq : nth_error (hist c) (length h1) = Some (ERet id 1 (RNat 0))) by (rewrite Hh, nth_error_app2, Nat.sub_diag by lia; reflexivity).
  set (p := h1 ++ ERet id 1 (RNat 0) :: h3 ++ e3 :: h5).
  assert (Hp : hist c = p ++ ERet id5 2 (ROptVal None) :: h6) by (unfold p; rewrite Hh, Hh2, Hh4, <- !app_assoc; simpl; rewrite <- !app_assoc; reflexivity).
  assert (Hr : nth_error (hist c) (length p) = Some (ERet id5 2 (ROptVal None))) by (rewrite Hp, nth_error_app2, Nat.sub_diag by lia; reflexivity).
  destruct (h_ev _ _ _ _ _ _ _ Ex _ _ Hq) as ((o & [O _]) & _). destruct (h_ev _ _ _ _ _ _ _ Ex _ _ Hr) as ((o5 & [O5 _]) & _).
  assert (Lid : id < length h1) by (rewrite <- (firstn_length_le (hist c) (n := length h1)) by (rewrite Hh, app_length; lia); apply nth_error_Some; congruence).
  assert (L5 : id5 < length p) by (rewrite <- (firstn_length_le (hist c) (n := length p)) by (rewrite Hp, app_length; lia); apply nth_error_Some; congruence).
  rewrite nth_firstn in O by exact Lid. rewrite nth_firstn in O5 by exact L5.
  destruct (In2 _ _ _ _ O) as [[_ Ho]|[Q _]]; [|discriminate Q]. destruct (In2 _ _ _ _ O5) as [[Q _]|[_ Ho5]]; [discriminate Q|]. rewrite Ho in O. rewrite Ho5 in O5.
  assert (Lt : length h1 < id5).
  { destruct (Nat.lt_trichotomy id5 (length h1)) as [L|[L|L]]; [exfalso|exfalso; rewrite L, Hq in O5; discriminate|exact L].
    rewrite Hh, nth_error_app1 in O5 by exact L. apply visible_called in O5. rewrite V1 in O5. simpl in O5. destruct O5 as [Q|[Q|[]]]; discriminate Q. }
  destruct (Linear.C13_some ex [] 2 8 c X id (length h1) 0 1 0 id5 (length p) (OGetCloned 0) (ROptVal None)) as (v & Q); [|lia|auto| |exact Lt| |discriminate Q].
  - exists (OPush 7). split; [exists 1; split; [exact O|exact Hq]|auto].
  - exists 2. split; [exact O5|exact Hr].
  - apply epoch_eq; [lia|]. intros j _ Hj. apply nth_error_In in Hj. assert (K : In Cleared (visible (hist c))) by (apply in_flat_map; exists EClear; simpl; auto).
    rewrite H in K. simpl in K. intuition discriminate.
Qed.

(** ** C09 and C14 fail under release/acquire, even for the thread that made the push. *)
Definition early : list (Weak.witem nat) :=
  [Weak.Wl (WInv 0 (OPush 7) 0); Weak.Go 0 1] ++ Weak.wcalls 1 (OPush 8) 0 ++ Weak.wcalls 1 (OGet 1) 0 ++ Weak.wcalls 1 (OIndex 1) 0 ++ Weak.wcalls 1 (OGetCloned 1) 0.
Definition early_events : list (event nat) :=
  [EInv 0 0 (OPush 7); EAcc 0 0 (AcAdd 0 1); EInv 2 1 (OPush 8); EAcc 2 1 (AcAdd 1 1); EAcc 2 1 (AcInit 1 8); ERet 2 1 (RNat 1);
   EInv 6 1 (OGet 1); ERet 6 1 (ROptElem None); EInv 8 1 (OIndex 1); EPan 8 1 POutOfBounds; EInv 10 1 (OGetCloned 1); EAcc 10 1 (AcRead 1 8); ERet 10 1 (ROptVal (Some 8))].
Theorem C49_get_refuted : exists w, whistory ex false [] 2 8 w early_events.
Proof.
  exists (WeakLinear.hcfg false [] early). replace early_events with (WeakLinear.hevs false [] early) by (vm_compute; reflexivity). apply WeakLinear.hex_history. vm_compute. reflexivity.
Qed.
Definition missed : list (Weak.witem nat) :=
  Weak.wcalls 0 (OPush 7) 0 ++ [Weak.Wl (WInv 1 (OGetCloned 0) 0); Weak.Go 1 4] ++ Weak.wcalls 0 OLen 0 ++ [Weak.Go 1 100].
Definition missed_events : list (event nat) :=
  [EInv 0 0 (OPush 7); EAcc 0 0 (AcAdd 0 1); EAcc 0 0 (AcInit 0 7); ERet 0 0 (RNat 0);
   EInv 4 1 (OGetCloned 0); EInv 5 0 OLen; ERet 5 0 (RNat 0); EAcc 4 1 (AcRead 0 7); ERet 4 1 (ROptVal (Some 7))].
Theorem C49_len_refuted : exists w, whistory ex false [] 2 8 w missed_events.
Proof.
  exists (WeakLinear.hcfg false [] missed). replace missed_events with (WeakLinear.hevs false [] missed) by (vm_compute; reflexivity). apply WeakLinear.hex_history. vm_compute. reflexivity.
Qed.

(** ** Examples *)

(** Pushes at the same time, [clear], a panicking closure, growth, and two calls that are still running. *)
Definition busy_one : list (item nat) :=
  begin 1 (OPush 7) 2 ++ calls 2 (OExtendN [Some 1; Some 2] 2) ++ [Fin 1] ++ [Lab LClear] ++ calls 1 (OPush 9) ++ calls 3 (OGet 0) ++ calls 4 (OElem 0 (EMap (fun _ => None))) ++
  begin 2 (OGetCloned 0) 4 ++ begin 3 (OPush 4) 2.
Example C49_example : let c := final [5] busy_one in execution ex false false [5] 2 8 c /\
  In Cleared (visible (hist c)) /\ In (Panicked 4 PClosure) (visible (hist c)) /\ exists i j, open (hist c) i 2 (OGetCloned 0) /\ open (hist c) j 3 (OPush 4).
Proof.
  cbv zeta. split; [apply ex_final; vm_compute; reflexivity|]. split; [vm_compute; tauto|]. split; [vm_compute; tauto|].
  exists 26, 30. split; split; vm_compute; reflexivity.
Qed.

Print Assumptions C49_histories.
Print Assumptions C49_endless.
Print Assumptions C49_starvation_refuted.
Print Assumptions C49_converse_refuted.
Print Assumptions C49_get_refuted.
Print Assumptions C49_len_refuted.
