(** * C52: closures that use other vectors, under release/acquire. *)

From Coq Require Import List Arith Bool Lia.
From Verif.Model Require Import Prog Mem Deps State Elem Vec Excl Machine Reentrant Network.
From Verif Require Import Client Spec Nested.
From Verif.RA Require Import Weak WTrace WReentrant WNetwork WInv WSound WHist WNested WLent WProject WFlow WStacks.
From Verif.Logic Require Import Nesting Inner.
From Verif.Properties Require Import C33 Examples Weak WeakReentrant.
Import ListNotations.

Section C52.
  Context {V : Type} (E : nat -> env V) (ro : nat -> bool) (l0 : nat -> list V) (c0 m0 : nat -> nat).
  Implicit Types (c : xcfg V).
  Notation xexec := (xexecution E ro l0 c0 m0).

  (** What happens to one vector is an execution of that vector alone, as in C47, in which the threads know the
      same: other vectors are further ways to synchronise ... *)
  Theorem C52_vectors c w t : xexec c -> exists q, qexecution (E w) (ro w) (l0 w) (c0 w) (m0 w) q /\
    q_mem q = q_mem (xvecs c w) /\ q_run q = q_run (xvecs c w) /\ q_hist q = q_hist (xvecs c w) /\ q_ans q = q_ans (xvecs c w) /\
    q_res q = q_res (xvecs c w) /\ q_panics q = q_panics (xvecs c w) /\ q_view q (holder t q) = knowledge c t w.
  Proof.
    intros X. destruct (x_proj E ro l0 c0 m0 c t w X) as (f & Xf & Ag & _). exists (set_views (xvecs c w) f). split; [assumption|]. repeat (split; [reflexivity|]).
    cbn [set_views q_view]. change (holder t (set_views (xvecs c w) f)) with (holder t (xvecs c w)). unfold knowledge.
    destruct (holder_agent t (xvecs c w)) as (d & ->). apply Ag.
  Qed.
  (** ... so whatever holds for the histories and results of one vector (C47), also without callbacks (C40, C44), holds
      for each of the vectors. *)
  Theorem C52_transfer c w (P : list (revent V) -> list (qresult V) -> list (nat * option (ans V)) -> Prop) :
    (forall q, qexecution (E w) (ro w) (l0 w) (c0 w) (m0 w) q -> P (q_hist q) (q_res q) (q_ans q)) -> xexec c ->
    P (q_hist (xvecs c w)) (q_res (xvecs c w)) (q_ans (xvecs c w)).
  Proof. intros H X. destruct (C52_vectors c w 0 X) as (q & Xq & _ & _ & <- & <- & <- & _). auto. Qed.
  Theorem C52_flat c w (P : list (event V) -> list (wresult V) -> Prop) :
    (forall x h, whistory (E w) (ro w) (l0 w) (c0 w) (m0 w) x h -> P h (w_res x)) -> xexec c -> P (qflatten (xvecs c w)) (qresults (xvecs c w)).
  Proof.
    intros H X. apply (C52_transfer c w (fun h r a => P (map (flat_event (answered a)) h) (map (flat_res (answered a)) r))); [|assumption].
    intros q Xq. exact (C47_transfer _ _ _ _ _ q P H Xq).
  Qed.

  (** No data race, no access to an element out of bounds or without a value, whatever the closures do with the
      vectors. *)
  Theorem C52_no_fault c l f : xexec c -> xclient E ro c l -> xstep E c l <> XFault f.
  Proof.
    intros X C S. destruct l as [v l|t u]; cbn [xstep] in S.
    - destruct (xmay c v l) eqn:May; [|discriminate]. destruct (qstep (E v) (xvecs c v) l) as [q|x|] eqn:Sq; try discriminate.
      assert (T : exists t, forall t', by_thread l = Some t' -> t' = t) by (destruct (by_thread l) as [t|]; [exists t; now intros ? [= ->]|exists 0; discriminate]). destruct T as (t & T).
      destruct (x_proj E ro l0 c0 m0 c t v X) as (g & Xg & Ag & _). assert (Ns : forall t u, l <> QSync t u) by (intros ? ? ->; discriminate).
      pose proof (views_step (E v) (xvecs c v) g l (fun t' By => eq_rect_r (agrees (xvecs c v) g) Ag (T t' By)) Ns) as Vs. rewrite Sq in Vs.
      exact (C47_no_fault _ _ _ _ _ _ l x Xg C Vs).
    - destruct (xturn c t); discriminate.
  Qed.
  (** A thread can always go on: its user code, or its innermost call. *)
  Theorem C52_enabled c t : xexec c -> xturn c t = false -> exists w k c', xstep E c (XOn w (QStep t k)) = XNext c'.
  Proof.
    intros X U. unfold xturn in U. destruct (xopen c t) as [|[w id] rest] eqn:Op; [discriminate|]. destruct (x_proj E ro l0 c0 m0 c t w X) as (g & Xg & Ag & _).
    destruct (C47_enabled _ _ _ _ _ (set_views (xvecs c w) g) t Xg U) as (k & q' & Sq). exists w, k. cbn [xstep xmay]. unfold xtop. rewrite Op, Nat.eqb_refl.
    assert (By : forall t', by_thread (QStep (V := V) t k) = Some t' -> agrees (xvecs c w) g t') by (intros ? [= <-]; assumption).
    pose proof (views_step (E w) (xvecs c w) g (QStep t k) By ltac:(discriminate)) as Vs. destruct (qstep (E w) (xvecs c w) (QStep t k)); [eauto|congruence ..].
  Qed.

  (** ** How calls nest *)

  (** [xopen] has the calls that have started and not ended. *)
  Theorem C52_calls c t w id : xexec c -> In (w, id) (xopen c t) <-> exists d o, ropen (q_hist (xvecs c w)) id t d o.
  Proof. intros X. exact (x_calls E ro l0 c0 m0 c t w id X). Qed.
  (** The call around an unfinished call has not ended, and it makes no access and does not end while that call is
      unfinished, whatever the vectors of the two. *)
  Theorem C52_nesting c l c' w2 id2 w1 id1 : xexec c -> xwithin c w2 id2 w1 id1 -> xstep E c l = XNext c' ->
    rdone (q_hist (xvecs c' w1)) id1 = false /\ raccs (q_hist (xvecs c' w1)) id1 = raccs (q_hist (xvecs c w1)) id1.
  Proof.
    intros X (t & h & rest & Cl & In1) S.
    assert (K : exists x rest', xopen c t = x :: rest' /\ In (w1, id1) rest').
    { destruct h as [|y h]; [eexists _, rest; split; [exact Cl|assumption]|]. eexists y, _. split; [exact Cl|]. apply in_or_app. right. now right. }
    destruct K as (x & rest' & Cl' & I'). assert (O : rdone (q_hist (xvecs c w1)) id1 = false).
    { assert (Ic : In (w1, id1) (xopen c t)) by (rewrite Cl'; now right). apply (C52_calls c t w1 id1 X) in Ic as (d & o & _ & O). exact O. }
    destruct (x_silent E ro l0 c0 m0 c l c' t x rest' w1 id1 X S Cl' I') as [Hh|(e & Hh & Ne)]; rewrite Hh; [auto|]. split.
    - rewrite rdone_snoc, O. destruct e; try reflexivity; simpl in *; destruct (Nat.eqb_spec id id1); congruence.
    - rewrite raccs_app. replace (raccs [e] id1) with (@nil (acc V)); [apply app_nil_r|]. symmetry. apply raccs_fresh. intros e' [<-|[]]. assumption.
  Qed.

  (** ** The order of calls *)

  (** Calls of one thread on one vector, whichever closures they are in, are ordered as their events. *)
  Theorem C52_order c w (x y : qresult V) : xexec c -> In x (q_res (xvecs c w)) -> In y (q_res (xvecs c w)) -> p_thread x = p_thread y ->
    p_end x < p_id y -> vle (p_to x) (p_from y).
  Proof. intros X Hx Hy Ht. destruct (C52_vectors c w 0 X) as (q & Xq & _ & _ & _ & _ & Hr & _). rewrite <- Hr in Hx, Hy. now apply (C47_order _ _ _ _ _ q x y Xq Hx Hy Ht). Qed.
  (** Synchronisation outside of the vectors orders the calls on all vectors. *)
  Theorem C52_sync c t u c1 c2 w x y : xexec c -> In x (q_res (xvecs c w)) -> p_thread x = t -> xstep E c (XSync u t) = XNext c1 ->
    xreach E (keeping E (fun v => v = w) ro) c1 c2 -> In y (q_res (xvecs c2 w)) -> p_thread y = u -> length (q_hist (xvecs c1 w)) <= p_id y -> vle (p_to x) (p_from y).
  Proof.
    intros X Hx Ht S R Hy Hu L. assert (X1 : xexec c1) by exact (xexecution_step E ro l0 c0 m0 c (XSync u t) c1 X I S).
    refine (proj2 (known_later E ro l0 c0 m0 w c1 c2 u (p_to x) X1 _ R) y Hy Hu L). eapply vle_trans; [exact (result_known E ro l0 c0 m0 _ c x X Hx)|]. rewrite Ht.
    cbn [xstep] in S. destruct (xturn c u); [|discriminate]. injection S as <-. unfold knowledge. cbn [xvecs]. rewrite with_knowledge, Nat.eqb_refl. apply vle_join_r.
  Qed.
  (** The elements of one vector order the calls on the others.  Thread [t] has made call [x] on vector [a].  Then it
      changes position [i] of vector [b] (it writes a new element, or updates one).  Thread [u] accesses that
      position afterwards.  Then its later calls on [a] come after [x].  No other synchronisation is needed, and
      either may be in closures. *)
  Theorem C52_publication c c1 c2 c3 c4 a b i t u x y l j d e l' j' d' e' : xexec c -> a <> b ->
    In x (q_res (xvecs c a)) -> p_thread x = t ->
    xclient E ro c (XOn b l) -> xstep E c (XOn b l) = XNext c1 -> q_hist (xvecs c1 b) = q_hist (xvecs c b) ++ [NAcc j t d e] -> changes i e ->
    xreach E (keeping E (fun w => w = a \/ w = b) ro) c1 c2 ->
    xclient E ro c2 (XOn b l') -> xstep E c2 (XOn b l') = XNext c3 -> q_hist (xvecs c3 b) = q_hist (xvecs c2 b) ++ [NAcc j' u d' e'] -> on_elem i e' ->
    xreach E (keeping E (fun w => w = a) ro) c3 c4 -> In y (q_res (xvecs c4 a)) -> p_thread y = u -> length (q_hist (xvecs c3 a)) <= p_id y ->
    vle (p_to x) (p_from y).
  Proof.
    intros X N Hx Ht C S H Ch R C' S' H' On R' Hy Hu L. pose proof (xexecution_step _ _ _ _ _ _ _ _ X C S) as X1.
    destruct (accessing E ro l0 c0 m0 c b l c1 j t d e i S H) as (_ & W & By). pose proof (flows_write E ro l0 c0 m0 a b i c l c1 t X S By N (W Ch)) as F.
    assert (F2 := flows_reach E ro l0 c0 m0 a b i _ _ N (Nat.lt_0_succ _) c1 c2 X1 F R). pose proof (keeping_exec E ro l0 c0 m0 _ c1 c2 X1 R) as X2.
    pose proof (xexecution_step _ _ _ _ _ _ _ _ X2 C' S') as X3. destruct (accessing E ro l0 c0 m0 c2 b l' c3 j' u d' e' i S' H') as (K & _ & By').
    pose proof (flows_use a b i _ _ N (Nat.lt_0_succ _) c2 u F2 (K (or_introl On))) as G.
    refine (proj2 (known_later E ro l0 c0 m0 a c3 c4 u (p_to x) X3 _ R') y Hy Hu L).
    eapply vle_trans; [exact (result_known E ro l0 c0 m0 _ c x X Hx)|]. rewrite Ht. eapply vle_trans; [exact G|].
    exact (xf_up _ _ _ _ _ (step_xflow E ro l0 c0 m0 c2 b l' c3 u X2 S' By') a).
  Qed.
  (** So do references: thread [t] has made call [x] on vector [a], and then gets result [z] on vector [b].  Thread [u]
      makes a call on [b] that needs a reference (an element, a slice) from [z].  Then its later calls on [a] come after [x]. *)
  Theorem C52_handover c c1 c2 c3 c4 a b t u k o x y z : xexec c -> a <> b ->
    In x (q_res (xvecs c a)) -> p_thread x = t ->
    xclient E ro c (XOn b (QStep t k)) -> xstep E c (XOn b (QStep t k)) = XNext c1 -> q_res (xvecs c1 b) = q_res (xvecs c b) ++ [z] ->
    xreach E (keeping E (fun w => w = a \/ w = b) ro) c1 c2 ->
    xclient E ro c2 (XOn b (QInv u o (length (q_res (xvecs c b))))) -> xstep E c2 (XOn b (QInv u o (length (q_res (xvecs c b))))) = XNext c3 ->
    needs (with_answers (fun _ => None) o) <> None ->
    xreach E (keeping E (fun w => w = a) ro) c3 c4 -> In y (q_res (xvecs c4 a)) -> p_thread y = u -> length (q_hist (xvecs c3 a)) <= p_id y ->
    vle (p_to x) (p_from y).
  Proof.
    intros X N Hx Ht C S H R C' S' Nd R' Hy Hu L. pose proof (xexecution_step _ _ _ _ _ _ _ _ X C S) as X1. pose proof (keeping_exec E ro l0 c0 m0 _ c1 c2 X1 R) as X2.
    pose proof (xexecution_step _ _ _ _ _ _ _ _ X2 C' S') as X3. destruct (returned E a b c t k c1 z S N H) as (_ & A1 & K1).
    destruct (xrel_reach E ro l0 c0 m0 a b (LRes, length (q_res (xvecs c b))) c1 c2 X1 N R) as [A2 K2]. rewrite A1 in A2, K2.
    pose proof (handed E ro l0 c0 m0 a b c2 u o _ c3 X2 S' N Nd) as K3. rewrite A2 in K3.
    refine (proj2 (known_later E ro l0 c0 m0 a c3 c4 u (p_to x) X3 _ R') y Hy Hu L).
    eapply vle_trans; [exact (result_known E ro l0 c0 m0 _ c x X Hx)|]. rewrite Ht. eapply vle_trans; [exact K1|]. eapply vle_trans; eassumption.
  Qed.
  (** What calls find that come after another one, as C47: in particular elements are found by the calls that are
      ordered by elements of another vector. *)
  Theorem C52_visible c w x y b j i : xexec c -> In x (q_res (xvecs c w)) -> In y (q_res (xvecs c w)) -> vle (p_to x) (p_from y) ->
    rgrows (p_op x) = true -> p_ret x = RNat b -> j < asks (p_op x) -> i = b + j -> (p_op y = RPlain (OGetCloned i) \/ p_op y = RPlain (OGetCopied i)) ->
    exists v, p_ret y = ROptVal (Some v) /\ (ro w = true -> stores (with_answers (answered (q_ans (xvecs c w)) (p_id x)) (p_op x)) b j v).
  Proof.
    intros X Hx Hy. destruct (C52_vectors c w 0 X) as (q & Xq & _ & _ & _ & Ha & Hr & _). rewrite <- Hr in Hx, Hy. rewrite <- Ha. exact (C47_visible _ _ _ _ _ q x y b j i Xq Hx Hy).
  Qed.

  Lemma step_results c l c' w x : xstep E c l = XNext c' -> l <> XOn w QClear -> In x (q_res (xvecs c w)) -> In x (q_res (xvecs c' w)).
  Proof.
    intros S Nl I. destruct l as [v l|t u]; cbn [xstep] in S.
    - destruct (xmay c v l); [|discriminate]. destruct (qstep (E v) (xvecs c v) l) as [q|f|] eqn:Sq; try discriminate. injection S as <-. cbn [xvecs].
      destruct (Nat.eq_dec w v) as [->|N]; [|destruct (after_mem E c v l q w N) as [_ ->]; assumption]. rewrite (after_own E).
      destruct l as [t o from|t k|t a|t u| |n]; cbv beta iota zeta delta [qstep] in Sq; [| | | |congruence|].
      + destruct (turn _) in Sq; [|discriminate]. destruct (qfetch _ _ _); [|discriminate]. apply qnext_inj in Sq; subst q. exact I.
      + destruct (stack t _) as [|fr rest]; [discriminate|]. destruct (k_prog fr) as [r|m|a kk|a again kk|kk]; [| | | |discriminate].
        * apply qnext_inj in Sq; subst q. cbn [q_res]. apply in_or_app. now left.
        * apply qnext_inj in Sq; subst q. exact I.
        * destruct (wexec _ _ _ _ _ _); try discriminate. apply qnext_inj in Sq; subst q. exact I.
        * destruct (wexec _ _ _ _ _ _) as [y0| |]; try discriminate. destruct (again y0); apply qnext_inj in Sq; subst q; exact I.
      + destruct (stack t _) as [|[n id o from [r|m|a' k|a' again k|k]] rest]; try discriminate. apply qnext_inj in Sq; subst q. exact I.
      + destruct (turn _) in Sq; [|discriminate]. apply qnext_inj in Sq; subst q. exact I.
      + destruct (q_run _) in Sq; [|discriminate]. destruct (reserve _ _ _ _); apply qnext_inj in Sq; subst q; exact I.
    - destruct (xturn c t); [|discriminate]. injection S as <-. exact I.
  Qed.
  Lemma kept_results (W : nat -> Prop) c c' w x : W w -> xreach E (keeping E W ro) c c' -> In x (q_res (xvecs c w)) -> In x (q_res (xvecs c' w)).
  Proof. intros Hw R I. induction R as [|d l d' R IH [_ K] S]; [assumption|]. eapply step_results; eauto. Qed.
  (** Both together: [t] pushes to [a] and then to [b]; whoever has read the element of [b] finds the one of [a]. *)
  Theorem C52_found c c1 c2 c3 c4 a b i t u x y l j d e l' j' d' e' n k : xexec c -> a <> b ->
    In x (q_res (xvecs c a)) -> p_thread x = t -> rgrows (p_op x) = true -> p_ret x = RNat n -> k < asks (p_op x) ->
    xclient E ro c (XOn b l) -> xstep E c (XOn b l) = XNext c1 -> q_hist (xvecs c1 b) = q_hist (xvecs c b) ++ [NAcc j t d e] -> changes i e ->
    xreach E (keeping E (fun w => w = a \/ w = b) ro) c1 c2 ->
    xclient E ro c2 (XOn b l') -> xstep E c2 (XOn b l') = XNext c3 -> q_hist (xvecs c3 b) = q_hist (xvecs c2 b) ++ [NAcc j' u d' e'] -> on_elem i e' ->
    xreach E (keeping E (fun w => w = a) ro) c3 c4 -> In y (q_res (xvecs c4 a)) -> p_thread y = u -> length (q_hist (xvecs c3 a)) <= p_id y ->
    (p_op y = RPlain (OGetCloned (n + k)) \/ p_op y = RPlain (OGetCopied (n + k))) ->
    exists v, p_ret y = ROptVal (Some v) /\ (ro a = true -> stores (with_answers (answered (q_ans (xvecs c4 a)) (p_id x)) (p_op x)) n k v).
  Proof.
    intros X N Hx Ht Gr Rx Hk C S H Ch R C' S' H' On R' Hy Hu L Oy.
    pose proof (C52_publication c c1 c2 c3 c4 a b i t u x y l j d e l' j' d' e' X N Hx Ht C S H Ch R C' S' H' On R' Hy Hu L) as Le.
    pose proof (xexecution_step _ _ _ _ _ _ _ _ X C S) as X1. pose proof (keeping_exec E ro l0 c0 m0 _ c1 c2 X1 R) as X2.
    pose proof (xexecution_step _ _ _ _ _ _ _ _ X2 C' S') as X3. pose proof (keeping_exec E ro l0 c0 m0 _ c3 c4 X3 R') as X4.
    assert (Nb : forall l, XOn (V := V) b l <> XOn a QClear) by (intros l1 Q; injection Q as Q _; congruence).
    pose proof (step_results _ _ _ a x S (Nb l) Hx) as I1. pose proof (kept_results _ _ _ a x (or_introl eq_refl) R I1) as I2.
    pose proof (step_results _ _ _ a x S' (Nb l') I2) as I3. pose proof (kept_results _ _ _ a x eq_refl R' I3) as I4.
    exact (C52_visible c4 a x y n k (n + k) X4 I4 Hy Le Gr Rx Hk eq_refl Oy).
  Qed.
End C52.

(** ** Examples *)

(** As [WeakReentrant.qplay], on vectors like [Examples.ex]. [XStp v t]: one step of [t] on [v], reading the newest
    message; [XFin v t]: until user code runs. *)
Inductive xitem : Type := XLab (l : xlabel nat) | XStp (v t : nat) | XFin (v t : nat).
Definition xex : nat -> env nat := fun _ => ex.
Definition xgo (ro : bool) (c : xcfg nat) (l : xlabel nat) : option (xcfg nat) :=
  if match l with XOn v l => qokb ro (xvecs c v) l | XSync _ _ => true end then match xstep xex c l with XNext c' => Some c' | _ => None end else None.
Definition xnext (c : xcfg nat) (v t : nat) : xlabel nat := XOn v (QStep t (qfresh (xvecs c v) t)).
Fixpoint xfinish (ro : bool) (fuel : nat) (c : xcfg nat) (v t : nat) : option (xcfg nat) :=
  if turn (stack t (q_run (xvecs c v))) then Some c else
  match fuel with
  | 0 => None
  | S k => match xgo ro c (xnext c v t) with
           | Some c' => if length (stack t (q_run (xvecs c' v))) =? length (stack t (q_run (xvecs c v))) then xfinish ro k c' v t else Some c'
           | None => None
           end
  end.
Definition xone (ro : bool) (c : xcfg nat) (i : xitem) : option (xcfg nat) :=
  match i with XLab l => xgo ro c l | XStp v t => xgo ro c (xnext c v t) | XFin v t => xfinish ro 100 c v t end.
Fixpoint xplay (ro : bool) (c : xcfg nat) (s : list xitem) : option (xcfg nat) :=
  match s with [] => Some c | i :: s' => match xone ro c i with Some c' => xplay ro c' s' | None => None end end.
Definition xclears (s : list xitem) : bool := existsb (fun i => match i with XLab (XOn _ QClear) => true | _ => false end) s.
Lemma xgo_client ro c l c' : xgo ro c l = Some c' -> xclient xex (fun _ => ro) c l /\ xstep xex c l = XNext c'.
Proof.
  unfold xgo. intros H. destruct l as [v l|t u].
  - destruct (qokb ro (xvecs c v) l) eqn:O; [|discriminate]. destruct (xstep xex c (XOn v l)) as [d| |] eqn:S; try discriminate. injection H as <-. split; [|reflexivity].
    cbn [xstep] in S. destruct (xmay c v l); [|discriminate]. destruct (qstep (xex v) (xvecs c v) l) as [q| |] eqn:Sq; try discriminate.
    assert (G : qgo ro (xvecs c v) l = Some q) by (unfold qgo; rewrite O; change ex with (xex v); now rewrite Sq). apply qgo_client in G. apply G.
  - destruct (xstep _ _ _) eqn:S; try discriminate. injection H as <-. split; [exact I|reflexivity].
Qed.
Section XReach.
  Variables (ro : bool) (P : xcfg nat -> xlabel nat -> Prop).
  Hypothesis HP : forall c v t k, xclient xex (fun _ => ro) c (XOn v (QStep t k)) -> P c (XOn v (QStep t k)).
  Lemma xfinish_reach v t fuel : forall c0 c c', xreach xex P c0 c -> xfinish ro fuel c v t = Some c' -> xreach xex P c0 c'.
  Proof.
    induction fuel as [|k IH]; intros c0 c c' R H; cbn [xfinish] in H; destruct (turn _) in H; try discriminate; try (injection H as <-; assumption).
    destruct (xgo ro c (xnext c v t)) as [d|] eqn:G; [|discriminate]. apply xgo_client in G as [C S].
    assert (xreach xex P c0 d) by (eapply xreach_step; [exact R|apply HP; exact C|exact S]).
    destruct (_ =? _) in H; [eapply IH; eauto|injection H as <-; assumption].
  Qed.
  Lemma xplay_reach s : (forall c l, In (XLab l) s -> xclient xex (fun _ => ro) c l -> P c l) -> forall c0 c c', xreach xex P c0 c -> xplay ro c s = Some c' -> xreach xex P c0 c'.
  Proof.
    induction s as [|i s IH]; intros Hs c0 c c' R; cbn [xplay]; [now intros [= <-]|]. destruct (xone ro c i) as [d|] eqn:G; [|discriminate].
    apply IH; [intros ? ? Hi; apply Hs; now right|]. destruct i as [l|v t|v t]; cbn [xone] in G.
    - apply xgo_client in G as [C S]. eapply xreach_step; [exact R|apply Hs; [now left|exact C]|exact S].
    - apply xgo_client in G as [C S]. eapply xreach_step; [exact R|apply HP; exact C|exact S].
    - eapply xfinish_reach; eauto.
  Qed.
End XReach.
Lemma xplay_keeping ro W s c c' : xclears s = false -> xplay ro c s = Some c' -> xreach xex (keeping xex W (fun _ => ro)) c c'.
Proof.
  intros Cl H. refine (xplay_reach ro _ _ s _ c c c' (xreach_start _ _ _) H).
  - intros d v t k C. split; [assumption|]. intros; discriminate.
  - intros d l I C. split; [assumption|]. intros v _ ->. unfold xclears in Cl. assert (existsb (fun i => match i with XLab (XOn _ QClear) => true | _ => false end) s = true); [|congruence].
    apply existsb_exists. exists (XLab (XOn v QClear)). auto.
Qed.
Definition xbegin : xcfg nat := xstart (fun _ => [5; 6]) (fun _ => 2) (fun _ => 8).
Definition xfinal (ro : bool) (s : list xitem) : xcfg nat := match xplay ro xbegin s with Some c => c | None => xbegin end.
Definition xpossible (ro : bool) (s : list xitem) : bool := match xplay ro xbegin s with Some _ => true | None => false end.
Notation xexec ro c := (xexecution xex (fun _ => ro) (fun _ => [5; 6]) (fun _ => 2) (fun _ => 8) c).
Lemma xex_final ro s : xpossible ro s = true -> xexec ro (xfinal ro s).
Proof.
  unfold xpossible, xfinal. intros G. assert (2 < wmod ex) by (apply Nat.ltb_lt; vm_compute; reflexivity). split.
  - intros w. split; [exact ex_ok|]. split; [exact ex_cap|]. cbn [length]. split; [lia|assumption].
  - destruct (xplay ro xbegin s) eqn:Hg; [|discriminate]. refine (xplay_reach ro _ _ s _ _ _ _ (xreach_start _ _ _) Hg); auto.
Qed.
Lemma xfinal_app ro s1 s2 : xpossible ro (s1 ++ s2) = true -> xplay ro (xfinal ro s1) s2 = Some (xfinal ro (s1 ++ s2)).
Proof.
  assert (A : forall s1 s2 c, xplay ro c (s1 ++ s2) = match xplay ro c s1 with Some d => xplay ro d s2 | None => None end).
  { clear. induction s1 as [|i s1 IH]; intros s2 c; cbn [xplay app]; [reflexivity|]. destruct (xone ro c i); [apply IH|reflexivity]. }
  unfold xpossible, xfinal. rewrite A. destruct (xplay ro xbegin s1) as [d|]; [|discriminate]. destruct (xplay ro d s2); [reflexivity|discriminate].
Qed.
Lemma xfinal_step ro s v t : xpossible ro (s ++ [XStp v t]) = true -> exists l, xclient xex (fun _ => ro) (xfinal ro s) (XOn v l) /\ xstep xex (xfinal ro s) (XOn v l) = XNext (xfinal ro (s ++ [XStp v t])).
Proof.
  intros H. apply xfinal_app in H. cbn [xplay xone] in H. destruct (xgo ro _ _) as [d|] eqn:G; [|discriminate]. injection H as <-. apply xgo_client in G. unfold xnext in G. eauto.
Qed.
Definition xcall (v t : nat) (o : rop nat) (from : nat) : list xitem := [XLab (XOn v (QInv t o from)); XFin v t].
Definition xanswer (v t : nat) (a : option (ans nat)) : list xitem := [XLab (XOn v (QAns t a)); XFin v t].

(** The same, faster: the configurations of vectors 0 and 1 are computed once. *)
Definition same (c d : xcfg nat) : Prop := (forall w, xvecs c w = xvecs d w) /\ (forall t, xopen c t = xopen d t) /\ (forall v, xage c v = xage d v) /\ forall v a p w, xrel c v a p w = xrel d v a p w.
Definition memo (c : xcfg nat) : xcfg nat :=
  let q := xvecs c 0 in let q' := xvecs c 1 in XCfg (fun w => match w with 0 => q | 1 => q' | _ => xvecs c w end) (xopen c) (xage c) (xrel c).
Definition mgo (ro : bool) (c : xcfg nat) (l : xlabel nat) : option (xcfg nat) := match xgo ro c l with Some c' => Some (memo c') | None => None end.
Fixpoint mfinish (ro : bool) (fuel : nat) (c : xcfg nat) (v t : nat) : option (xcfg nat) :=
  if turn (stack t (q_run (xvecs c v))) then Some c else
  match fuel with
  | 0 => None
  | S k => match mgo ro c (xnext c v t) with
           | Some c' => if length (stack t (q_run (xvecs c' v))) =? length (stack t (q_run (xvecs c v))) then mfinish ro k c' v t else Some c'
           | None => None
           end
  end.
Definition mone (ro : bool) (c : xcfg nat) (i : xitem) : option (xcfg nat) :=
  match i with XLab l => mgo ro c l | XStp v t => mgo ro c (xnext c v t) | XFin v t => mfinish ro 100 c v t end.
Fixpoint mplay (ro : bool) (c : xcfg nat) (s : list xitem) : option (xcfg nat) :=
  match s with [] => Some c | i :: s' => match mone ro c i with Some c' => mplay ro c' s' | None => None end end.
Definition mfinal (ro : bool) (s : list xitem) : xcfg nat := match mplay ro xbegin s with Some c => c | None => xbegin end.
Definition mpossible (ro : bool) (s : list xitem) : bool := match mplay ro xbegin s with Some _ => true | None => false end.

Lemma memo_same c d : same c d -> same c (memo d).
Proof. intros (A & B & C & D). split; [|auto]. intros [|[|w]]; apply A. Qed.
Lemma same_step c d l : same c d ->
  match xstep xex c l with
  | XNext c' => exists d', xstep xex d l = XNext d' /\ same c' d'
  | XFault f => xstep xex d l = XFault f
  | XDisabled => xstep xex d l = XDisabled
  end.
Proof.
  intros (A & B & C & D). assert (K : forall t w, knowledge c t w = knowledge d t w) by (intros; unfold knowledge; now rewrite A).
  assert (T : forall t, xturn c t = xturn d t) by (intros; unfold xturn; rewrite B; destruct (xopen d t) as [|[w id] r]; [reflexivity|now rewrite A]).
  assert (Le : forall v e t w, learned c v e t w = learned d v e t w) by (intros; unfold learned; destruct (e_acq e); rewrite ?K, ?C, ?D; reflexivity).
  destruct l as [v l|t u]; cbn [xstep].
  - assert (M : xmay c v l = xmay d v l) by (destruct l; cbn [xmay]; unfold xtop; rewrite ?T, ?B; reflexivity). rewrite M. destruct (xmay d v l); [|reflexivity].
    rewrite A. destruct (qstep (xex v) (xvecs d v) l) as [q|f|]; try reflexivity. eexists. split; [reflexivity|]. unfold same. cbn [xvecs xopen xage xrel]. split; [|split; [|split]].
    + intros w. unfold vecs_after. rewrite !A. destruct (w =? v); [reflexivity|]. destruct (by_thread l); [|reflexivity]. destruct (e_acq _); [|reflexivity]. now rewrite Le.
    + intros t. unfold xcalls. destruct l; try apply B; rewrite ?A; [|destruct (_ <? _); [|apply B]]; unfold set_at; rewrite ?B; destruct (_ =? _); auto.
    + intros w. destruct l; try apply C. unfold set_at. rewrite !C. destruct (_ =? _); auto.
    + intros v' a p w. unfold rel_after. rewrite A. destruct l; cbn [by_thread]; try (destruct (e_new _)); rewrite ?D; try reflexivity;
        rewrite C; destruct (_ && _); rewrite ?D; try reflexivity; unfold released; rewrite !D, !C, Le; destruct (e_prev _); rewrite ?D, ?C; reflexivity.
  - rewrite T. destruct (xturn d t); [|reflexivity]. eexists. split; [reflexivity|]. unfold same. cbn [xvecs xopen xage xrel]. split; [|auto]. intros w. now rewrite A, !K.
Qed.
Lemma same_go ro c d l d' : same c d -> mgo ro d l = Some d' -> exists c', xgo ro c l = Some c' /\ same c' d'.
Proof.
  intros Sa G. unfold mgo, xgo in *. pose proof (same_step c d l Sa) as St. assert (Q : match l with XOn v l => qokb ro (xvecs c v) l | XSync _ _ => true end = match l with XOn v l => qokb ro (xvecs d v) l | XSync _ _ => true end).
  { destruct l; [|reflexivity]. now rewrite (proj1 Sa). }
  rewrite Q. destruct (match l with XOn v l => qokb ro (xvecs d v) l | XSync _ _ => true end); [|discriminate].
  destruct (xstep xex c l) as [c'| |].
  - destruct St as (d1 & S1 & Sd). rewrite S1 in G. injection G as <-. exists c'. split; [reflexivity|]. now apply memo_same.
  - rewrite St in G. discriminate.
  - rewrite St in G. discriminate.
Qed.
Lemma same_finish ro v t n : forall c d d', same c d -> mfinish ro n d v t = Some d' -> exists c', xfinish ro n c v t = Some c' /\ same c' d'.
Proof.
  induction n as [|n IH]; intros c d d' Sa G; cbn [mfinish xfinish] in *; rewrite (proj1 Sa); destruct (turn _) in G |- *; try discriminate; try (injection G as <-; eauto).
  destruct (mgo ro d (xnext d v t)) as [d1|] eqn:G1; [|discriminate]. replace (xnext d v t) with (xnext c v t) in G1 by (unfold xnext; now rewrite (proj1 Sa)).
  destruct (same_go ro c d _ d1 Sa G1) as (c1 & -> & S1). rewrite (proj1 S1). destruct (_ =? _) in G |- *; [eauto|]. injection G as <-. eauto.
Qed.
Lemma same_play ro s : forall c d d', same c d -> mplay ro d s = Some d' -> exists c', xplay ro c s = Some c' /\ same c' d'.
Proof.
  induction s as [|i s IH]; intros c d d' Sa G; cbn [mplay xplay] in *; [injection G as <-; eauto|].
  assert (K : forall d1, mone ro d i = Some d1 -> exists c1, xone ro c i = Some c1 /\ same c1 d1).
  { intros d1 G1. destruct i as [l|v t|v t]; cbn [mone xone] in *; [eapply same_go; eauto| |eapply same_finish; eauto].
    replace (xnext d v t) with (xnext c v t) in G1 by (unfold xnext; now rewrite (proj1 Sa)). eapply same_go; eauto. }
  destruct (mone ro d i) as [d1|]; [|discriminate]. destruct (K d1 eq_refl) as (c1 & -> & S1). eauto.
Qed.
Lemma same_refl c : same c c.
Proof. repeat split. Qed.
Lemma mpossible_same ro s : mpossible ro s = true -> xpossible ro s = true /\ same (xfinal ro s) (mfinal ro s).
Proof.
  unfold mpossible, mfinal, xpossible, xfinal. intros H. destruct (mplay ro xbegin s) as [d|] eqn:G; [|discriminate].
  destruct (same_play ro s _ _ _ (same_refl _) G) as (c & -> & Sc). auto.
Qed.
Lemma m_run ro s : mpossible ro s = true -> xexec ro (xfinal ro s).
Proof. intros H. apply xex_final, mpossible_same, H. Qed.
Lemma m_vec ro s w : mpossible ro s = true -> xvecs (xfinal ro s) w = xvecs (mfinal ro s) w.
Proof. intros H. apply mpossible_same, H. Qed.
Lemma m_open ro s t : mpossible ro s = true -> xopen (xfinal ro s) t = xopen (mfinal ro s) t.
Proof. intros H. now apply mpossible_same. Qed.
Lemma m_keeping ro W s s' : xclears s' = false -> mpossible ro (s ++ s') = true -> xreach xex (keeping xex W (fun _ => ro)) (xfinal ro s) (xfinal ro (s ++ s')).
Proof. intros C H. apply (xplay_keeping ro W s'); [assumption|]. apply xfinal_app, mpossible_same, H. Qed.
Lemma m_step ro s v t : mpossible ro (s ++ [XStp v t]) = true -> exists l, xclient xex (fun _ => ro) (xfinal ro s) (XOn v l) /\ xstep xex (xfinal ro s) (XOn v l) = XNext (xfinal ro (s ++ [XStp v t])).
Proof. intros H. apply xfinal_step, mpossible_same, H. Qed.
Lemma m_label ro s l : mpossible ro (s ++ [XLab l]) = true -> xstep xex (xfinal ro s) l = XNext (xfinal ro (s ++ [XLab l])).
Proof.
  intros H. apply mpossible_same in H as [H _]. apply xfinal_app in H. cbn [xplay xone] in H. destruct (xgo ro _ l) as [d|] eqn:G; [|discriminate].
  injection H as <-. apply xgo_client in G. apply G.
Qed.
Lemma m_label_client ro s l : mpossible ro (s ++ [XLab l]) = true -> xclient xex (fun _ => ro) (xfinal ro s) l.
Proof.
  intros H. apply mpossible_same in H as [H _]. apply xfinal_app in H. cbn [xplay xone] in H. destruct (xgo ro _ l) as [d|] eqn:G; [|discriminate].
  apply xgo_client in G. apply G.
Qed.
Lemma m_is {A} (f : qcfg nat -> A) ro s w x : mpossible ro s = true -> f (xvecs (mfinal ro s) w) = x -> f (xvecs (xfinal ro s) w) = x.
Proof. intros H. now rewrite (m_vec ro s w H). Qed.
Lemma m_grows ro s s' w e : mpossible ro s = true -> mpossible ro s' = true -> q_hist (xvecs (mfinal ro s') w) = q_hist (xvecs (mfinal ro s) w) ++ [e] ->
  q_hist (xvecs (xfinal ro s') w) = q_hist (xvecs (xfinal ro s) w) ++ [e].
Proof. intros H H'. now rewrite (m_vec ro s w H), (m_vec ro s' w H'). Qed.
Lemma m_turn ro s t : mpossible ro s = true -> xturn (mfinal ro s) t = false -> xturn (xfinal ro s) t = false.
Proof. intros H. unfold xturn. rewrite (m_open ro s t H). destruct (xopen (mfinal ro s) t) as [|[w id] r]; [easy|]. now rewrite (m_vec ro s w H). Qed.
Lemma xbrief (l : list (qresult nat)) z : In z (map brief l) -> exists x, In x l /\ brief x = z.
Proof. intros H. apply in_map_iff in H as (x & B & I). eauto. Qed.
Lemma m_result ro s w z : mpossible ro s = true -> In z (map brief (q_res (xvecs (mfinal ro s) w))) -> exists x, In x (q_res (xvecs (xfinal ro s) w)) /\ brief x = z.
Proof. intros H I. rewrite (m_vec ro s w H). now apply xbrief. Qed.

(** Thread 0: [a.push(7); a[0].map(|x| { b.push(8); x })], with [a] vector 0 and [b] vector 1.
    Thread 1: [b.get_cloned(2); a.get_cloned(2)]. *)
Definition xs1 : list xitem :=
  xcall 0 0 (RPlain (OGet 0)) 0 ++ xcall 0 0 (RPlain (OPush 7)) 0 ++ xcall 0 0 (RElemMap 0) 0 ++ XLab (XOn 1 (QInv 0 (RPlain (OPush 8)) 0)) :: repeat (XStp 1 0) 6.
Definition xs2 : list xitem := XFin 1 0 :: xanswer 0 0 (Some (AVal 5)) ++ XLab (XOn 1 (QInv 1 (RPlain (OGetCloned 2)) 0)) :: repeat (XStp 1 1) 5.
Definition xs3 : list xitem := XFin 1 1 :: xcall 0 1 (RPlain (OGetCloned 2)) 0.
Definition xw1 : list xitem := xs1 ++ [XStp 1 0].
Definition xw2 : list xitem := xw1 ++ xs2.
Definition xw3 : list xitem := xw2 ++ [XStp 1 1].
Definition xw4 : list xitem := xw3 ++ xs3.
Definition xend : xcfg nat := xfinal false xw4.
Lemma xw_possible : mpossible false xs1 = true /\ mpossible false xw1 = true /\ mpossible false xw2 = true /\ mpossible false xw3 = true /\ mpossible false xw4 = true.
Proof. repeat split; vm_compute; reflexivity. Qed.
Lemma xend_run : xexec false xend.
Proof. apply m_run. apply xw_possible. Qed.
Lemma xend_hist : q_hist (xvecs xend 0) =
    [NInv 0 0 0 (RPlain (OGet 0)); NRet 0 0 0 (ROptElem (Some 0));
     NInv 2 0 0 (RPlain (OPush 7)); NAcc 2 0 0 (AcAdd 2 1); NAcc 2 0 0 (AcInit 2 7); NRet 2 0 0 (RNat 2);
     NInv 6 0 0 (RElemMap 0); NAcc 6 0 0 (AcRead 0 5); NRet 6 0 0 (RVal 5);
     NInv 9 1 0 (RPlain (OGetCloned 2)); NAcc 9 1 0 (AcRead 2 7); NRet 9 1 0 (ROptVal (Some 7))] /\
  q_hist (xvecs xend 1) =
    [NInv 0 0 0 (RPlain (OPush 8)); NAcc 0 0 0 (AcAdd 2 1); NAcc 0 0 0 (AcInit 2 8); NRet 0 0 0 (RNat 2);
     NInv 4 1 0 (RPlain (OGetCloned 2)); NAcc 4 1 0 (AcRead 2 8); NRet 4 1 0 (ROptVal (Some 8))].
Proof. split; apply m_is; try apply xw_possible; vm_compute; reflexivity. Qed.
Example C52_vectors_example : xexec false xend /\ length (q_hist (xvecs xend 0)) = 12 /\ length (q_hist (xvecs xend 1)) = 7.
Proof. split; [exact xend_run|]. destruct xend_hist as [-> ->]. split; reflexivity. Qed.
Example C52_transfer_example : xexec false xend /\ map brief (q_res (xvecs xend 1)) = [(0, 0, 3, RPlain (OPush 8), RNat 2); (1, 4, 6, RPlain (OGetCloned 2), ROptVal (Some 8))].
Proof. split; [exact xend_run|]. apply (m_is (fun q => map brief (q_res q)) false xw4 1); [apply xw_possible|]. vm_compute. reflexivity. Qed.
Example C52_flat_example : xexec false xend /\ map (fun x => (r_op x, r_ret x)) (qresults (xvecs xend 1)) = [(OPush 8, RNat 2); (OGetCloned 2, ROptVal (Some 8))].
Proof. split; [exact xend_run|]. apply (m_is (fun q => map (fun x => (r_op x, r_ret x)) (qresults q)) false xw4 1); [apply xw_possible|]. vm_compute. reflexivity. Qed.
Example C52_no_fault_example : xexec false xend /\ xclient xex (fun _ => false) xend (XOn 1 (QInv 2 (RPlain (OPush 9)) 0)).
Proof. split; [exact xend_run|]. apply m_label_client. vm_compute. reflexivity. Qed.
(** Thread 0 in the middle of the [push] in the closure: its innermost call is on vector 1. *)
Definition xmid : xcfg nat := xfinal false xw1.
Example C52_enabled_example : xexec false xmid /\ xturn xmid 0 = false /\ xopen xmid 0 = [(1, 0); (0, 6)].
Proof.
  assert (P : mpossible false xw1 = true) by apply xw_possible. split; [apply m_run, P|]. split; [apply m_turn; [exact P|vm_compute; reflexivity]|].
  refine (eq_trans (m_open false xw1 0 P) _). vm_compute. reflexivity.
Qed.
Example C52_calls_example : xexec false xmid /\ In (0, 6) (xopen xmid 0) /\ In (1, 0) (xopen xmid 0).
Proof. destruct C52_enabled_example as (X & _ & ->). split; [exact X|]. split; [right; left; reflexivity|left; reflexivity]. Qed.
(** The next step of the [push] on vector 1 while [map] on vector 0 runs its closure. *)
Example C52_nesting_example : xexec false xmid /\ xwithin xmid 1 0 0 6 /\ exists l c', xstep xex xmid (XOn 1 l) = XNext c'.
Proof.
  destruct C52_enabled_example as (X & _ & O). split; [exact X|]. split; [exists 0, [], [(0, 6)]; split; [exact O|left; reflexivity]|].
  destruct (m_step false xw1 1 0 ltac:(vm_compute; reflexivity)) as (l & _ & S). exists l, (xfinal false (xw1 ++ [XStp 1 0])). exact S.
Qed.
(** The two calls of thread 0 on vector 0: [push], and [map] around the call on vector 1. *)
Example C52_order_example : xexec false xend /\ exists x y, In x (q_res (xvecs xend 0)) /\ In y (q_res (xvecs xend 0)) /\ p_thread x = p_thread y /\ p_end x < p_id y /\
  p_op x = RPlain (OPush 7) /\ p_op y = RElemMap 0.
Proof.
  split; [exact xend_run|].
  assert (P : mpossible false xw4 = true) by apply xw_possible.
  destruct (m_result false xw4 0 (0, 2, 5, @RPlain nat (OPush 7), @RNat nat 2) P) as (x & Hx & B); [vm_compute; tauto|].
  destruct (m_result false xw4 0 (0, 6, 8, @RElemMap nat 0, @RVal nat 5) P) as (y & Hy & C); [vm_compute; tauto|]. injection B as B1 B2 B3 B4 B5. injection C as C1 C2 C3 C4 C5.
  exists x, y. split; [assumption|]. split; [assumption|]. split; [rewrite B1, C1; reflexivity|]. split; [rewrite B3, C2; lia|]. split; assumption.
Qed.
(** Thread 1 receives a message from thread 0 and then calls [a.get_cloned(2)]. *)
Definition xy1 : list xitem := xcall 0 0 (RPlain (OPush 7)) 0.
Definition xy2 : list xitem := xy1 ++ [XLab (XSync 1 0)].
Definition xy3 : list xitem := xy2 ++ xcall 0 1 (RPlain (OGetCloned 2)) 0.
Example C52_sync_example : xexec false (xfinal false xy1) /\ (exists x, In x (q_res (xvecs (xfinal false xy1) 0)) /\ brief x = (0, 0, 3, RPlain (OPush 7), RNat 2)) /\
  xstep xex (xfinal false xy1) (XSync 1 0) = XNext (xfinal false xy2) /\ xreach xex (keeping xex (fun v => v = 0) (fun _ => false)) (xfinal false xy2) (xfinal false xy3) /\
  (exists y, In y (q_res (xvecs (xfinal false xy3) 0)) /\ brief y = (1, 4, 6, RPlain (OGetCloned 2), ROptVal (Some 7))) /\ length (q_hist (xvecs (xfinal false xy2) 0)) = 4.
Proof.
  assert (P1 : mpossible false xy1 = true) by (vm_compute; reflexivity). assert (P2 : mpossible false xy2 = true) by (vm_compute; reflexivity).
  assert (P3 : mpossible false xy3 = true) by (vm_compute; reflexivity).
  split; [apply m_run, P1|]. split; [apply m_result; [exact P1|vm_compute; tauto]|]. split; [exact (m_label false xy1 _ P2)|].
  split; [exact (m_keeping false _ xy2 (xcall 0 1 (RPlain (OGetCloned 2)) 0) eq_refl P3)|]. split; [apply m_result; [exact P3|vm_compute; tauto]|]. apply (m_is (fun q => length (q_hist q)) false xy2 0 _ P2). vm_compute. reflexivity.
Qed.
(** Thread 0 pushes to [a] and gets a reference to the first element of [b], thread 1 uses this reference and then
    calls [a.get_cloned(2)]. *)
Definition xh1 : list xitem := xy1 ++ [XLab (XOn 1 (QInv 0 (RPlain (OGet 0)) 0))] ++ repeat (XStp 1 0) 6.
Definition xh2 : list xitem := xh1 ++ [XStp 1 0].
Definition xh3 : list xitem := xh2 ++ [XLab (XOn 1 (QInv 1 (RPlain (OElem 0 ECloned)) 0))].
Definition xh4 : list xitem := xh3 ++ XFin 1 1 :: xcall 0 1 (RPlain (OGetCloned 2)) 0.
Lemma m_return ro s v t : mpossible ro (s ++ [XStp v t]) = true -> length (q_res (xvecs (mfinal ro (s ++ [XStp v t])) v)) =? S (length (q_res (xvecs (mfinal ro s) v))) = true -> mpossible ro s = true ->
  exists k z, xclient xex (fun _ => ro) (xfinal ro s) (XOn v (QStep t k)) /\ xstep xex (xfinal ro s) (XOn v (QStep t k)) = XNext (xfinal ro (s ++ [XStp v t])) /\
    q_res (xvecs (xfinal ro (s ++ [XStp v t])) v) = q_res (xvecs (xfinal ro s) v) ++ [z].
Proof.
  intros P L P0. apply Nat.eqb_eq in L. rewrite <- !m_vec in L by assumption. apply mpossible_same in P as [P _]. apply xfinal_app in P. cbn [xplay xone] in P.
  generalize dependent (xfinal ro (s ++ [XStp v t])). generalize (xfinal ro s). intros c c' H L. destruct (xgo ro c (xnext c v t)) as [d|] eqn:G; [|discriminate]. injection H as <-.
  apply xgo_client in G as [C S]. unfold xnext in *. eexists. assert (Q : exists z, q_res (xvecs d v) = q_res (xvecs c v) ++ [z]).
  { clear C. revert S. generalize (qfresh (xvecs c v) t). intros k S. cbn [xstep] in S. destruct (xmay c v (QStep t k)); [|discriminate]. destruct (qstep (xex v) (xvecs c v) (QStep t k)) as [q| |] eqn:Sq; try discriminate. injection S as <-.
    cbn [xvecs] in *. rewrite (after_own xex) in *. cbv beta iota zeta delta [qstep] in Sq. destruct (stack t _) as [|fr rest]; [discriminate|]. destruct (k_prog fr) as [r|m|a kk|a again kk|kk]; [| | | |discriminate].
    - apply qnext_inj in Sq; subst q. cbn [q_res]. eauto.
    - apply qnext_inj in Sq; subst q. cbn [q_res] in L. lia.
    - destruct (wexec _ _ _ _ _ _); try discriminate. apply qnext_inj in Sq; subst q. unfold qafter in L. cbn [q_res] in L. lia.
    - destruct (wexec _ _ _ _ _ _) as [y0| |]; try discriminate. destruct (again y0); apply qnext_inj in Sq; subst q; unfold qafter in L; cbn [q_res] in L; lia. }
  destruct Q as (z & Q). exists z. eauto.
Qed.
Example C52_handover_example : xexec false (xfinal false xh1) /\ (exists x, In x (q_res (xvecs (xfinal false xh1) 0)) /\ brief x = (0, 0, 3, RPlain (OPush 7), RNat 2)) /\
  (exists k z, xclient xex (fun _ => false) (xfinal false xh1) (XOn 1 (QStep 0 k)) /\ xstep xex (xfinal false xh1) (XOn 1 (QStep 0 k)) = XNext (xfinal false xh2) /\
     q_res (xvecs (xfinal false xh2) 1) = q_res (xvecs (xfinal false xh1) 1) ++ [z]) /\
  length (q_res (xvecs (xfinal false xh1) 1)) = 0 /\ xclient xex (fun _ => false) (xfinal false xh2) (XOn 1 (QInv 1 (RPlain (OElem 0 ECloned)) 0)) /\
  xstep xex (xfinal false xh2) (XOn 1 (QInv 1 (RPlain (OElem 0 ECloned)) 0)) = XNext (xfinal false xh3) /\ needs (@OElem nat 0 ECloned) <> None /\
  xreach xex (keeping xex (fun v => v = 0) (fun _ => false)) (xfinal false xh3) (xfinal false xh4) /\
  (exists y, In y (q_res (xvecs (xfinal false xh4) 0)) /\ brief y = (1, 4, 6, RPlain (OGetCloned 2), ROptVal (Some 7))) /\ length (q_hist (xvecs (xfinal false xh3) 0)) = 4.
Proof.
  assert (P1 : mpossible false xh1 = true) by (vm_compute; reflexivity). assert (P2 : mpossible false xh2 = true) by (vm_compute; reflexivity).
  assert (P3 : mpossible false xh3 = true) by (vm_compute; reflexivity). assert (P4 : mpossible false xh4 = true) by (vm_compute; reflexivity).
  split; [apply m_run, P1|]. split; [apply m_result; [exact P1|vm_compute; tauto]|]. split; [apply (m_return false xh1 1 0 P2); [vm_compute; reflexivity|exact P1]|].
  split; [apply (m_is (fun q => length (q_res q)) false xh1 1 _ P1); vm_compute; reflexivity|]. split; [exact (m_label_client false xh2 _ P3)|]. split; [exact (m_label false xh2 _ P3)|]. split; [discriminate|].
  split; [exact (m_keeping false _ xh3 (XFin 1 1 :: xcall 0 1 (RPlain (OGetCloned 2)) 0) eq_refl P4)|]. split; [apply m_result; [exact P4|vm_compute; tauto]|]. apply (m_is (fun q => length (q_hist q)) false xh3 0 _ P3). vm_compute. reflexivity.
Qed.
(** [x]: the [push] of thread 0 to [a]; [y]: [get_cloned] of thread 1 on [a].  In between thread 0 writes element 2
    of [b], in a closure, and thread 1 reads it. *)
Lemma xpublication : exists l l', 
  xclient xex (fun _ => false) (xfinal false xs1) (XOn 1 l) /\ xstep xex (xfinal false xs1) (XOn 1 l) = XNext (xfinal false xw1) /\
  q_hist (xvecs (xfinal false xw1) 1) = q_hist (xvecs (xfinal false xs1) 1) ++ [NAcc 0 0 0 (AcInit 2 8)] /\
  xreach xex (keeping xex (fun w => w = 0 \/ w = 1) (fun _ => false)) (xfinal false xw1) (xfinal false xw2) /\
  xclient xex (fun _ => false) (xfinal false xw2) (XOn 1 l') /\ xstep xex (xfinal false xw2) (XOn 1 l') = XNext (xfinal false xw3) /\
  q_hist (xvecs (xfinal false xw3) 1) = q_hist (xvecs (xfinal false xw2) 1) ++ [NAcc 4 1 0 (AcRead 2 8)] /\
  xreach xex (keeping xex (fun w => w = 0) (fun _ => false)) (xfinal false xw3) xend.
Proof.
  destruct xw_possible as (P0 & P1 & P2 & P3 & P4). destruct (m_step false xs1 1 0 P1) as (l & C & S). destruct (m_step false xw2 1 1 P3) as (l' & C' & S').
  exists l, l'. split; [exact C|]. split; [exact S|]. split; [apply (m_grows false xs1 xw1 1 _ P0 P1); vm_compute; reflexivity|].
  split; [exact (m_keeping false _ xw1 xs2 eq_refl P2)|]. split; [exact C'|]. split; [exact S'|]. split; [apply (m_grows false xw2 xw3 1 _ P2 P3); vm_compute; reflexivity|].
  exact (m_keeping false _ xw3 xs3 eq_refl P4).
Qed.
Definition xhyp : Prop := exists l l' x y,
  xexec false (xfinal false xs1) /\ In x (q_res (xvecs (xfinal false xs1) 0)) /\ brief x = (0, 2, 5, RPlain (OPush 7), RNat 2) /\
  xclient xex (fun _ => false) (xfinal false xs1) (XOn 1 l) /\ xstep xex (xfinal false xs1) (XOn 1 l) = XNext (xfinal false xw1) /\
  q_hist (xvecs (xfinal false xw1) 1) = q_hist (xvecs (xfinal false xs1) 1) ++ [NAcc 0 0 0 (AcInit 2 8)] /\ changes 2 (@AcInit nat 2 8) /\
  xreach xex (keeping xex (fun w => w = 0 \/ w = 1) (fun _ => false)) (xfinal false xw1) (xfinal false xw2) /\
  xclient xex (fun _ => false) (xfinal false xw2) (XOn 1 l') /\ xstep xex (xfinal false xw2) (XOn 1 l') = XNext (xfinal false xw3) /\
  q_hist (xvecs (xfinal false xw3) 1) = q_hist (xvecs (xfinal false xw2) 1) ++ [NAcc 4 1 0 (AcRead 2 8)] /\ on_elem 2 (@AcRead nat 2 8) /\
  xreach xex (keeping xex (fun w => w = 0) (fun _ => false)) (xfinal false xw3) xend /\
  In y (q_res (xvecs xend 0)) /\ brief y = (1, 9, 11, RPlain (OGetCloned 2), ROptVal (Some 7)) /\ length (q_hist (xvecs (xfinal false xw3) 0)) = 9.
Lemma xhyp_holds : xhyp.
Proof.
  destruct xpublication as (l & l' & A & B & C & D & F & G & H & I).
  destruct xw_possible as (P0 & P1 & P2 & P3 & P4).
  destruct (m_result false xs1 0 (0, 2, 5, @RPlain nat (OPush 7), @RNat nat 2) P0) as (x & Ix & Bx); [vm_compute; tauto|].
  destruct (m_result false xw4 0 (1, 9, 11, @RPlain nat (OGetCloned 2), ROptVal (Some 7)) P4) as (y & Iy & By); [vm_compute; tauto|].
  exists l, l', x, y. split; [apply m_run, P0|]. split; [exact Ix|]. split; [exact Bx|]. split; [exact A|]. split; [exact B|]. split; [exact C|]. split; [reflexivity|].
  split; [exact D|]. split; [exact F|]. split; [exact G|]. split; [exact H|]. split; [reflexivity|]. split; [exact I|]. split; [exact Iy|]. split; [exact By|]. apply (m_is (fun q => length (q_hist q)) false xw3 0 _ P3). vm_compute. reflexivity.
Qed.
Example C52_publication_example : xhyp.
Proof. exact xhyp_holds. Qed.
(** The push of thread 0 to [a], and [get_cloned] of thread 1. *)
Example C52_visible_example : xexec false xend /\ exists x y, In x (q_res (xvecs xend 0)) /\ In y (q_res (xvecs xend 0)) /\ vle (p_to x) (p_from y) /\
  rgrows (p_op x) = true /\ p_ret x = RNat 2 /\ 0 < asks (p_op x) /\ p_op y = RPlain (OGetCloned (2 + 0)) /\ p_ret y = ROptVal (Some 7).
Proof.
  split; [exact xend_run|]. destruct xhyp_holds as (l & l' & x & y & X & Ix & Bx & C & S & H & Ch & R & C' & S' & H' & On & R' & Iy & By & Ln).
  injection Bx as B1 B2 B3 B4 B5. injection By as D1 D2 D3 D4 D5.
  assert (L : length (q_hist (xvecs (xfinal false xw3) 0)) <= p_id y) by (rewrite Ln, D2; lia).
  pose proof (C52_publication xex (fun _ => false) _ _ _ _ _ _ _ xend 0 1 2 0 1 x y l _ _ _ l' _ _ _ X (Nat.neq_0_succ 0) Ix B1 C S H Ch R C' S' H' On R' Iy D1 L) as Le.
  exists x, y. split.
  { assert (N1 : XOn 1 l <> XOn 0 (@QClear nat)) by discriminate. assert (N2 : XOn 1 l' <> XOn 0 (@QClear nat)) by discriminate.
    pose proof (step_results xex _ _ _ 0 x S N1 Ix) as I1. pose proof (kept_results xex _ _ _ _ 0 x (or_introl eq_refl) R I1) as I2.
    pose proof (step_results xex _ _ _ 0 x S' N2 I2) as I3. exact (kept_results xex _ _ _ _ 0 x eq_refl R' I3). }
  split; [exact Iy|]. split; [exact Le|]. rewrite B4, B5, D4. split; [reflexivity|]. split; [reflexivity|]. split; [apply Nat.ltb_lt; reflexivity|]. split; [reflexivity|exact D5].
Qed.
Example C52_found_example : xhyp /\ rgrows (@RPlain nat (OPush 7)) = true /\ 0 < asks (@RPlain nat (OPush 7)) /\ 2 + 0 = 2.
Proof. split; [exact xhyp_holds|]. split; [reflexivity|]. split; [apply Nat.ltb_lt; reflexivity|reflexivity]. Qed.

Print Assumptions C52_vectors.
Print Assumptions C52_transfer.
Print Assumptions C52_flat.
Print Assumptions C52_no_fault.
Print Assumptions C52_enabled.
Print Assumptions C52_calls.
Print Assumptions C52_nesting.
Print Assumptions C52_order.
Print Assumptions C52_sync.
Print Assumptions C52_publication.
Print Assumptions C52_handover.
Print Assumptions C52_visible.
Print Assumptions C52_found.
