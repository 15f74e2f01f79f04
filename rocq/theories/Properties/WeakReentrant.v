(** * C47: closures that call back into the vector, under release/acquire. *)

From Coq Require Import List Arith Bool Lia.
From Verif.Model Require Import Prog Mem Deps State Elem Vec Excl Machine Reentrant.
From Verif Require Import Client Spec Nested.
From Verif.RA Require Import Weak WTrace WReentrant WInv WStep WSound WHist WNested WLent.
From Verif.Logic Require Import Reentry Nesting.
From Verif.Properties Require Import C33 Examples Weak.
Import ListNotations.

Section C47.
  Context {V : Type} (E : env V) (ro : bool) (l0 : list V) (c0 m0 : nat).
  Notation qexecution := (qexecution E ro l0 c0 m0).
  Implicit Types (q : qcfg V).

  (** Executions with closures that call back are executions without: every depth of a thread can be seen as a
      further thread, with which user code synchronises when a closure is entered and left ... *)
  Theorem C47_flat q : qexecution q -> exists c, whistory E ro l0 c0 m0 c (qflatten q) /\ w_mem c = q_mem q /\ w_res c = qresults q.
  Proof.
    intros X. destruct (qflat E ro l0 c0 m0 q _ X (consistent_self _)) as (c & cur & Xc & T & S). exists c. split; [|split; apply S].
    destruct X as (A & B & C & D & _). repeat (split; [assumption|]). exists cur. exact T.
  Qed.
  (** ... so whatever holds for the histories and results of those executions (C40, C44) holds here. *)
  Theorem C47_transfer q (P : list (event V) -> list (wresult V) -> Prop) :
    (forall c h, whistory E ro l0 c0 m0 c h -> P h (w_res c)) -> qexecution q -> P (qflatten q) (qresults q).
  Proof. intros H X. destruct (C47_flat q X) as (c & Hc & _ & <-). auto. Qed.

  (** No data race, no access to an element out of bounds or without a value, whatever the closures call. *)
  Theorem C47_no_fault q l f : qexecution q -> qclient E ro q l -> qstep E q l <> QFault f.
  Proof.
    intros X C S. destruct (qflat E ro l0 c0 m0 q _ X (consistent_self _)) as (c & cur & Xc & _ & Sm).
    destruct (qsim_fault E ro _ _ _ _ _ _ Sm C S) as (l' & Cl & St). exact (execution_safe E ro l0 c0 m0 c l' f Xc Cl St).
  Qed.
  (** A thread can always go on: its user code, or its innermost call. *)
  Theorem C47_enabled q t : qexecution q -> turn (stack t (q_run q)) = false -> exists k q', qstep E q (QStep t k) = QNext q'.
  Proof.
    intros X U. destruct (qflat E ro l0 c0 m0 q _ X (consistent_self _)) as (c & cur & Xc & _ & S).
    destruct (stack t (q_run q)) as [|fr rest] eqn:St; [discriminate|].
    pose proof (qs_run _ _ _ _ S t (length rest)) as Top. rewrite St, top_frame' in Top. destruct (wlookup _ _) as [x|] eqn:Lk; [|contradiction].
    destruct Top as [(Hid & _ & _ & Ha) _]. apply agr_inv in Ha.
    destruct (C40_enabled E ro l0 c0 m0 c _ x Xc Lk) as (k & c' & Sc). exists k. cbn [wstep] in Sc. unfold wstep_thread in Sc. rewrite Lk in Sc.
    rewrite Hid, (qs_mem _ _ _ _ S), (qs_view _ _ _ _ S) in Sc.
    cbv beta iota zeta delta [qstep]. rewrite St. cbn [turn] in U. destruct (k_prog fr) as [v|m|a kk|a again kk|kk]; [eauto|eauto| | |discriminate].
    - destruct Ha as (k' & Pr & _). rewrite Pr in Sc. destruct (wexec _ _ _ _ _ _); [eauto|discriminate ..].
    - destruct Ha as (k' & Pr & _). rewrite Pr in Sc. destruct (wexec _ _ _ _ _ _) as [y| |]; [|discriminate ..]. destruct (again y); eauto.
  Qed.

  (** Calls nest: the call around an open call does not go on (no access, no return, no panic). *)
  Theorem C47_nesting q id2 id1 o k : qexecution q -> inside (q_hist q) id2 id1 o -> id2 < k -> rdone (firstn k (q_hist q)) id2 = false ->
    rdone (firstn k (q_hist q)) id1 = false /\ forall t d x, nth_error (q_hist q) k <> Some (NAcc id1 t d x).
  Proof.
    intros X Ins L D. assert (Sil := fun n e => g_outer_silent E (rof q) _ _ _ n e (qexec_gexec E ro l0 c0 m0 q X) Ins).
    split; [|intros t d x He; eapply Sil; eauto; reflexivity].
    destruct (rdone (firstn k (q_hist q)) id1) eqn:Q; [exfalso|reflexivity]. unfold rdone in Q. apply existsb_exists in Q as (e & I & Re).
    apply In_nth_error in I as (n & Hn). apply firstn_old in Hn as [Ln Hn].
    assert (O : caller e = Some id1) by (destruct e; try discriminate; simpl in *; apply Nat.eqb_eq in Re as ->; reflexivity).
    destruct (Nat.lt_trichotomy n id2) as [L2|[->|L2]].
    - destruct Ins as (t & d & d2 & o2 & Ld & (_ & Dn) & _). unfold rdone in Dn.
      assert (existsb (is_rend id1) (firstn id2 (q_hist q)) = true); [|congruence]. apply existsb_exists. exists e. split; [|assumption].
      apply nth_error_In with n. now rewrite firstn_nth.
    - destruct Ins as (t & d & d2 & o2 & Ld & _ & I2). rewrite Hn in I2. injection I2 as ->. discriminate.
    - refine (Sil n e L2 _ Hn O). apply (rdone_firstn _ n k); [lia|assumption].
  Qed.

  (** What the borrow checker promises to closures: a value lent to a closure does not change while the closure is
      inside a call, and a value lent to the closure of [update] is not even read. *)
  Theorem C47_exclusive q id id1 o i k j t d x : qexecution q ->
    inside (q_hist q) id id1 o -> lends o (length (values_read (firstn id (q_hist q)) id1)) = Some i -> id < k ->
    rdone (firstn k (q_hist q)) id = false -> nth_error (q_hist q) k = Some (NAcc j t d x) ->
    ~ changes i x /\ (o = RElemUpdate i -> ~ on_elem i x).
  Proof. apply q_lent. Qed.

  (** ** The order of calls *)

  (** A result belongs to a call of the history. *)
  Theorem C47_results q (x : qresult V) : qexecution q -> In x (q_res q) -> exists d,
    nth_error (q_hist q) (p_id x) = Some (NInv (p_id x) (p_thread x) d (p_op x)) /\
    nth_error (q_hist q) (p_end x) = Some (NRet (p_id x) (p_thread x) d (p_ret x)).
  Proof. apply result_events. Qed.
  (** Calls of one thread, whether in closures or not, are ordered as their events: a call knows what every call
      knew that returned before it started, and what the calls around it knew when they started. *)
  Theorem C47_order q (x y : qresult V) : qexecution q -> In x (q_res q) -> In y (q_res q) -> p_thread x = p_thread y ->
    (p_end x < p_id y -> vle (p_to x) (p_from y)) /\ (p_id x < p_id y -> vle (p_from x) (p_from y)) /\
    (p_end x < p_end y -> vle (p_to x) (p_to y)) /\ (p_id x < p_end y -> vle (p_from x) (p_to y)).
  Proof.
    intros X Hx Hy Ht. destruct (execution_ord E ro l0 c0 m0 q X) as [_ O].
    assert (Fx : knew q (p_thread x) (p_id x) (p_from x)) by (right; exists x; auto).
    assert (Tx : knew q (p_thread x) (p_end x) (p_to x)) by (right; exists x; auto).
    assert (Fy : knew q (p_thread x) (p_id y) (p_from y)) by (right; exists y; auto).
    assert (Ty : knew q (p_thread x) (p_end y) (p_to y)) by (right; exists y; auto).
    eauto 10.
  Qed.
  (** A thread that synchronises with another one, maybe in a closure, and the other one maybe in a closure: from
      then on its calls know what the calls of the other thread knew that have returned. *)
  Theorem C47_sync q t u q1 q2 x y : qexecution q -> In x (q_res q) -> qstep E q (QSync u t) = QNext q1 -> p_thread x = t ->
    qreach E (calm E ro) q1 q2 -> In y (q_res q2) -> p_thread y = u -> length (q_hist q1) <= p_id y -> vle (p_to x) (p_from y).
  Proof.
    intros X Hx S Ht R Hy Hu L. assert (X1 : qexecution q1) by (eapply qexecution_step; [exact X| |exact S]; exact I).
    destruct (execution_ord E ro l0 c0 m0 q X) as [O _]. destruct (O t (p_end x) (p_to x)) as [_ A]; [right; exists x; auto|].
    assert (B : vle (p_to x) (q_view q1 (holder u q1))).
    { cbv beta iota zeta delta [qstep] in S. destruct (turn _) in S; [|discriminate]. apply qnext_inj in S; subst q1. cbn [q_view].
      eapply vle_trans; [exact A|]. unfold learn, upd. change (holder u (QCfg _ _ (q_run q) _ _ _ _ _ _)) with (holder u q). rewrite Nat.eqb_refl. apply vle_join_r. }
    destruct (kept E ro l0 c0 m0 q1 q2 u (p_to x) (length (q_hist q1)) X1 R B (le_n _)) as [_ K]. apply (K (p_id y)); [|assumption].
    right. exists y. auto.
  Qed.

  Lemma flat_in q c x : w_res c = qresults q -> In x (q_res q) -> In (flat_res (answered (q_ans q)) x) (w_res c).
  Proof. intros ->. apply in_map. Qed.
  Lemma whist_exec c h : whistory E ro l0 c0 m0 c h -> wexecution E ro l0 c0 m0 c.
  Proof. intros (A & B & C & D & cur & T). repeat (split; [assumption|]). eapply wtrace_reach; eauto. Qed.
  (** An element pushed is there for every later call: in particular for the calls of the same thread, wherever the
      two calls are made; the elements are the items that the closures returned. *)
  Theorem C47_visible q x y b j i : qexecution q -> In x (q_res q) -> In y (q_res q) -> vle (p_to x) (p_from y) ->
    rgrows (p_op x) = true -> p_ret x = RNat b -> j < asks (p_op x) -> i = b + j -> (p_op y = RPlain (OGetCloned i) \/ p_op y = RPlain (OGetCopied i)) ->
    exists v, p_ret y = ROptVal (Some v) /\ (ro = true -> stores (with_answers (answered (q_ans q) (p_id x)) (p_op x)) b j v).
  Proof.
    intros X Hx Hy Le Gr Rb Hj Hi Ho. destruct (C47_flat q X) as (c & Hc & _ & Rc).
    set (w := answered (q_ans q)). refine (C40_visible E ro l0 c0 m0 c (flat_res w x) (flat_res w y) b j i (whist_exec _ _ Hc) (flat_in _ _ _ Rc Hx) (flat_in _ _ _ Rc Hy) Le _ Rb _ Hi _); cbn [flat_res r_op].
    - now rewrite same_grows.
    - rewrite (same_request _ _ (fun _ => None)). exact Hj.
    - destruct Ho as [-> | ->]; auto.
  Qed.
  (** The length never goes back, seen by the calls of one thread. *)
  Theorem C47_monotone q x y n n' : qexecution q -> In x (q_res q) -> In y (q_res q) -> vle (p_to x) (p_from y) ->
    p_op x = RPlain OLen -> p_op y = RPlain OLen -> p_ret x = RNat n -> p_ret y = RNat n' -> n <= n'.
  Proof.
    intros X Hx Hy Le Ox Oy Rx Ry. destruct (C47_flat q X) as (c & Hc & _ & Rc). set (w := answered (q_ans q)).
    refine (C40_monotone E ro l0 c0 m0 c (flat_res w x) (flat_res w y) n n' (whist_exec _ _ Hc) (flat_in _ _ _ Rc Hx) (flat_in _ _ _ Rc Hy) Le _ _); left; cbn [flat_res r_op r_ret].
    - now rewrite Ox.
    - now rewrite Oy.
  Qed.
End C47.

(** ** Examples *)

(** As [Weak.wplay]; [QFin t]: the innermost call of [t] goes on, reading the newest messages, until user code
    runs. *)
Inductive qitem : Type := QLab (l : qlabel nat) | QFin (t : nat).
Definition qokb (ro : bool) (c : qcfg nat) (l : qlabel nat) : bool :=
  match l with
  | QInv _ o _ => let o := with_answers (fun _ => None) o in
      negb (mut_refs o) && (if ro then negb (updates o) else negb (derefs o)) && (q_req c + request o <? wmod ex)
  | QClear => match q_panics c with [] => true | _ => false end
  | _ => true
  end.
Definition qgo (ro : bool) (c : qcfg nat) (l : qlabel nat) : option (qcfg nat) :=
  if qokb ro c l then match qstep ex c l with QNext c' => Some c' | _ => None end else None.
Definition qfresh (c : qcfg nat) (t : nat) : nat :=
  match stack t (q_run c) with
  | fr :: _ => match k_prog fr with RAct a _ | RSpin a _ _ => newest a (q_mem c) | _ => 0 end
  | [] => 0
  end.
Fixpoint qfinish (ro : bool) (fuel : nat) (c : qcfg nat) (t : nat) : option (qcfg nat) :=
  if turn (stack t (q_run c)) then Some c else
  match fuel with
  | 0 => None
  | S k => match qgo ro c (QStep t (qfresh c t)) with
           | Some c' => if length (stack t (q_run c')) =? length (stack t (q_run c)) then qfinish ro k c' t else Some c'
           | None => None
           end
  end.
Fixpoint qplay (ro : bool) (c : qcfg nat) (s : list qitem) : option (qcfg nat) :=
  match s with
  | [] => Some c
  | QLab l :: s' => match qgo ro c l with Some c' => qplay ro c' s' | None => None end
  | QFin t :: s' => match qfinish ro 100 c t with Some c' => qplay ro c' s' | None => None end
  end.
Lemma qgo_client ro c l c' : qgo ro c l = Some c' -> qclient ex ro c l /\ qstep ex c l = QNext c'.
Proof.
  unfold qgo. intros H. destruct (qokb ro c l) eqn:O; [|discriminate]. destruct (qstep ex c l) as [d| |] eqn:S; try discriminate. injection H as <-.
  split; [|reflexivity]. destruct l as [t o from|t k|t a|t u| |k]; try exact I.
  - cbn [qokb] in O. cbn [qclient]. cbv zeta in *. rewrite !andb_true_iff, Nat.ltb_lt in O. destruct O as ((O1 & O2) & O3). apply negb_true_iff in O1.
    split; [|assumption]. split; [|split; [assumption|split; [|discriminate]]].
    + unfold ranges_ok, range_ok. destruct (with_answers (fun _ => None) o); auto. destruct o0; auto.
    + destruct ro; now apply negb_true_iff.
  - cbn [qokb] in O. cbn [qclient]. destruct (q_panics c); [contradiction|discriminate].
Qed.
Section Reach.
  Variables (ro : bool) (P : qcfg nat -> qlabel nat -> Prop).
  Hypothesis HP : forall c t k, qclient ex ro c (QStep t k) -> P c (QStep t k).
  Lemma qfinish_reach t fuel : forall c0 c c', qreach ex P c0 c -> qfinish ro fuel c t = Some c' -> qreach ex P c0 c'.
  Proof.
    induction fuel as [|k IH]; intros c0 c c' R H; cbn [qfinish] in H; destruct (turn _) in H; try discriminate; try (injection H as <-; assumption).
    destruct (qgo ro c (QStep t (qfresh c t))) as [d|] eqn:G; [|discriminate]. apply qgo_client in G as [C S].
    assert (qreach ex P c0 d) by (eapply qreach_step; eauto).
    destruct (_ =? _) in H; [eapply IH; eauto|injection H as <-; assumption].
  Qed.
  Lemma qplay_reach s : (forall c l, In (QLab l) s -> qclient ex ro c l -> P c l) -> forall c0 c c', qreach ex P c0 c -> qplay ro c s = Some c' -> qreach ex P c0 c'.
  Proof.
    induction s as [|[l|t] s IH]; intros Hs c0 c c' R; cbn [qplay]; [now intros [= <-]| |].
    - destruct (qgo ro c l) as [d|] eqn:G; [|discriminate]. apply qgo_client in G as [C S]. apply IH; [intros ? ? Hi; apply Hs; now right|].
      eapply qreach_step; eauto. apply Hs; [now left|assumption].
    - destruct (qfinish ro 100 c t) as [d|] eqn:G; [|discriminate]. apply IH; [intros ? ? Hi; apply Hs; now right|]. eapply qfinish_reach; eauto.
  Qed.
End Reach.
Definition qfinal (ro : bool) (l0 : list nat) (s : list qitem) : qcfg nat :=
  match qplay ro (qstart l0 2 8) s with Some c => c | None => qstart l0 2 8 end.
Definition qpossible (ro : bool) (l0 : list nat) (s : list qitem) : bool :=
  (length l0 <=? 2) && match qplay ro (qstart l0 2 8) s with Some _ => true | None => false end.
Lemma qex_final ro l0 s : qpossible ro l0 s = true -> qexecution ex ro l0 2 8 (qfinal ro l0 s).
Proof.
  unfold qpossible, qfinal. rewrite andb_true_iff, Nat.leb_le. intros [H G]. assert (2 < wmod ex) by (apply Nat.ltb_lt; vm_compute; reflexivity).
  destruct (qplay _ _ s) eqn:Hg; [|discriminate]. split; [exact ex_ok|]. split; [exact ex_cap|]. split; [assumption|]. split; [lia|].
  eapply (qplay_reach ro); [auto|auto|apply qreach_start|exact Hg].
Qed.
Lemma qfinal_app ro l0 s1 s2 : qpossible ro l0 (s1 ++ s2) = true -> qplay ro (qfinal ro l0 s1) s2 = Some (qfinal ro l0 (s1 ++ s2)).
Proof.
  assert (A : forall s1 s2 c, qplay ro c (s1 ++ s2) = match qplay ro c s1 with Some d => qplay ro d s2 | None => None end).
  { clear. induction s1 as [|[l|t] s1 IH]; intros s2 c; cbn [qplay app]; [reflexivity| |].
    - destruct (qgo ro c l); [apply IH|reflexivity].
    - destruct (qfinish ro 100 c t); [apply IH|reflexivity]. }
  unfold qpossible, qfinal. rewrite andb_true_iff. intros [_ H]. rewrite A in *. destruct (qplay ro _ s1) as [d|]; [|discriminate].
  destruct (qplay ro d s2); [reflexivity|discriminate].
Qed.
Lemma qfinal_step ro l0 s l : qpossible ro l0 (s ++ [QLab l]) = true ->
  qclient ex ro (qfinal ro l0 s) l /\ qstep ex (qfinal ro l0 s) l = QNext (qfinal ro l0 (s ++ [QLab l])).
Proof.
  intros H. apply qfinal_app in H. cbn [qplay] in H. destruct (qgo ro _ l) as [d|] eqn:G; [|discriminate]. injection H as <-. now apply qgo_client.
Qed.
Definition qcalls (t : nat) (o : rop nat) (from : nat) : list qitem := [QLab (QInv t o from); QFin t].
Definition qanswer (t : nat) (a : option (ans nat)) : list qitem := [QLab (QAns t a); QFin t].

(** [e0.map(|x| { vec.push(7); e1.update(|y| { vec.get_cloned(2); rx.recv(); vec.get_cloned(3); *y = 9; }); x + 1 })]
    in thread 0; [recv] waits for thread 1, which has pushed 8. *)
Definition qnested1 : list qitem :=
  qcalls 0 (RPlain (OGet 0)) 0 ++ qcalls 0 (RPlain (OGet 1)) 0 ++ qcalls 0 (RElemMap 0) 0 ++ qcalls 0 (RPlain (OPush 7)) 0 ++
  qcalls 0 (RElemUpdate 1) 1 ++ qcalls 1 (RPlain (OPush 8)) 0 ++ qcalls 0 (RPlain (OGetCloned 2)) 0.
Definition qnested2 : list qitem := qcalls 0 (RPlain (OGetCloned 3)) 0 ++ qanswer 0 (Some (AWrite 9 true)) ++ qanswer 0 (Some (AVal 6)).
Definition qnested : list qitem := (qnested1 ++ [QLab (QSync 0 1)]) ++ qnested2.
Definition qend : qcfg nat := qfinal false [5; 6] qnested.
Lemma qnested_run : qexecution ex false [5; 6] 2 8 qend.
Proof. apply qex_final. vm_compute. reflexivity. Qed.
Example C47_flat_example : qexecution ex false [5; 6] 2 8 qend /\ q_hist qend =
  [NInv 0 0 0 (RPlain (OGet 0)); NRet 0 0 0 (ROptElem (Some 0)); NInv 2 0 0 (RPlain (OGet 1)); NRet 2 0 0 (ROptElem (Some 1));
   NInv 4 0 0 (RElemMap 0);
     NInv 5 0 1 (RPlain (OPush 7)); NAcc 5 0 1 (AcAdd 2 1); NAcc 5 0 1 (AcInit 2 7); NRet 5 0 1 (RNat 2);
     NInv 9 0 1 (RElemUpdate 1);
   NInv 10 1 0 (RPlain (OPush 8)); NAcc 10 1 0 (AcAdd 3 1); NAcc 10 1 0 (AcInit 3 8); NRet 10 1 0 (RNat 3);
       NInv 14 0 2 (RPlain (OGetCloned 2)); NAcc 14 0 2 (AcRead 2 7); NRet 14 0 2 (ROptVal (Some 7));
       NInv 17 0 2 (RPlain (OGetCloned 3)); NAcc 17 0 2 (AcRead 3 8); NRet 17 0 2 (ROptVal (Some 8));
     NAcc 9 0 1 (AcWrite 1 6 9); NRet 9 0 1 RUnit;
   NAcc 4 0 0 (AcRead 0 5); NRet 4 0 0 (RVal 6)].
Proof. split; [exact qnested_run|]. vm_compute. reflexivity. Qed.
(** What [C44] says about histories, for instance that the elements are the items, holds for the call in the closure. *)
Example C47_transfer_example : qexecution ex false [5; 6] 2 8 qend /\
  map (fun x => (r_op x, r_ret x)) (firstn 3 (skipn 2 (qresults qend))) = [(OPush 7, RNat 2); (OPush 8, RNat 3); (OGetCloned 2, ROptVal (Some 7))].
Proof. split; [exact qnested_run|]. vm_compute. reflexivity. Qed.
Example C47_no_fault_example : qexecution ex false [5; 6] 2 8 qend /\ qclient ex false qend (QInv 1 RMap 0).
Proof.
  split; [exact qnested_run|]. split; [split; [exact Logic.I|split; [reflexivity|split; [reflexivity|discriminate]]]|].
  apply Nat.ltb_lt. vm_compute. reflexivity.
Qed.
(** A call that has just started, in a closure. *)
Definition qmid : qcfg nat := qfinal false [5; 6] (qnested1 ++ [QLab (QInv 0 (RPlain OLen) 0)]).
Example C47_enabled_example : qexecution ex false [5; 6] 2 8 qmid /\ turn (stack 0 (q_run qmid)) = false /\ length (stack 0 (q_run qmid)) = 3.
Proof. split; [apply qex_final; vm_compute; reflexivity|]. split; vm_compute; reflexivity. Qed.
(** 9 is inside 4, and 14 and 17 are inside both. *)
Lemma qnested_inside : inside (q_hist qend) 17 4 (RElemMap 0) /\ inside (q_hist qend) 17 9 (RElemUpdate 1).
Proof. split; [exists 0, 0, 2|exists 0, 1, 2]; eexists; (split; [lia|]; split; [split|]; vm_compute; reflexivity). Qed.
Example C47_nesting_example : qexecution ex false [5; 6] 2 8 qend /\ inside (q_hist qend) 17 4 (RElemMap 0) /\ rdone (firstn 19 (q_hist qend)) 17 = false.
Proof. split; [exact qnested_run|]. split; [apply qnested_inside|]. vm_compute. reflexivity. Qed.
Example C47_exclusive_example : qexecution ex false [5; 6] 2 8 qend /\
  inside (q_hist qend) 17 4 (RElemMap 0) /\ lends (V := nat) (RElemMap 0) (length (values_read (firstn 17 (q_hist qend)) 4)) = Some 0 /\
  inside (q_hist qend) 17 9 (RElemUpdate 1) /\ lends (V := nat) (RElemUpdate 1) (length (values_read (firstn 17 (q_hist qend)) 9)) = Some 1 /\
  rdone (firstn 18 (q_hist qend)) 17 = false /\ nth_error (q_hist qend) 18 = Some (NAcc 17 0 2 (AcRead 3 8)).
Proof.
  split; [exact qnested_run|]. split; [apply qnested_inside|]. split; [vm_compute; reflexivity|]. split; [apply qnested_inside|]. repeat split; vm_compute; reflexivity.
Qed.

Definition brief (x : qresult nat) := (p_thread x, p_id x, p_end x, p_op x, p_ret x).
Lemma brief_in q z : In z (map brief (q_res q)) -> exists x, In x (q_res q) /\ brief x = z.
Proof. intros H. apply in_map_iff in H as (x & B & I). eauto. Qed.
Lemma qend_results : map brief (q_res qend) =
  [(0, 0, 1, RPlain (OGet 0), ROptElem (Some 0)); (0, 2, 3, RPlain (OGet 1), ROptElem (Some 1)); (0, 5, 8, RPlain (OPush 7), RNat 2);
   (1, 10, 13, RPlain (OPush 8), RNat 3); (0, 14, 16, RPlain (OGetCloned 2), ROptVal (Some 7));
   (0, 17, 19, RPlain (OGetCloned 3), ROptVal (Some 8)); (0, 9, 21, RElemUpdate 1, RUnit); (0, 4, 23, RElemMap 0, RVal 6)].
Proof. vm_compute. reflexivity. Qed.
Ltac result z x I B := let H := fresh in
  assert (H : In z (map brief (q_res qend))) by (rewrite qend_results; repeat (first [left; reflexivity|right])); apply brief_in in H as (x & I & B); unfold brief in B.
Example C47_results_example : qexecution ex false [5; 6] 2 8 qend /\ exists x, In x (q_res qend) /\ brief x = (0, 9, 21, RElemUpdate 1, RUnit).
Proof. split; [exact qnested_run|]. result (0, 9, 21, @RElemUpdate nat 1, @RUnit nat) x Ix B. exists x. split; [assumption|exact B]. Qed.
(** The push in the closure of [map], and [get_cloned] in the closure of [update]. *)
Example C47_order_example : qexecution ex false [5; 6] 2 8 qend /\ exists x y, In x (q_res qend) /\ In y (q_res qend) /\ p_thread x = p_thread y /\
  p_end x < p_id y /\ p_op x = RPlain (OPush 7) /\ p_op y = RPlain (OGetCloned 2) /\ p_ret y = ROptVal (Some 7).
Proof.
  split; [exact qnested_run|]. result (0, 5, 8, @RPlain nat (OPush 7), @RNat nat 2) x Ix B. result (0, 14, 16, @RPlain nat (OGetCloned 2), ROptVal (Some 7)) y J C.
  injection B as B1 B2 B3 B4 B5. injection C as C1 C2 C3 C4 C5. exists x, y. split; [assumption|]. split; [assumption|].
  split; [rewrite B1, C1; reflexivity|]. split; [rewrite B3, C2; lia|]. split; [assumption|]. split; assumption.
Qed.
(** The push of thread 1, and [get_cloned] in the closure after [recv]. *)
Definition qbefore : qcfg nat := qfinal false [5; 6] qnested1.
Definition qafter_sync : qcfg nat := qfinal false [5; 6] (qnested1 ++ [QLab (QSync 0 1)]).
Example C47_sync_example : qexecution ex false [5; 6] 2 8 qbefore /\ (exists x, In x (q_res qbefore) /\ p_thread x = 1 /\ p_op x = RPlain (OPush 8)) /\
  qstep ex qbefore (QSync 0 1) = QNext qafter_sync /\ qreach ex (calm ex false) qafter_sync qend /\
  exists y, In y (q_res qend) /\ p_thread y = 0 /\ length (q_hist qafter_sync) <= p_id y /\ p_op y = RPlain (OGetCloned 3).
Proof.
  split; [apply qex_final; vm_compute; reflexivity|]. split.
  { assert (H : In (1, 10, 13, @RPlain nat (OPush 8), @RNat nat 3) (map brief (q_res qbefore))) by (vm_compute; tauto).
    apply brief_in in H as (x & Ix & B). exists x. injection B as B1 B2 B3 B4 B5. split; [assumption|]. split; assumption. }
  split.
  { assert (Q : qpossible false [5; 6] (qnested1 ++ [QLab (QSync 0 1)]) = true) by (vm_compute; reflexivity). apply qfinal_step in Q as [_ Q]. exact Q. }
  split.
  { assert (R : qpossible false [5; 6] ((qnested1 ++ [QLab (QSync 0 1)]) ++ qnested2) = true) by (vm_compute; reflexivity). apply qfinal_app in R.
    refine (qplay_reach false (calm ex false) _ qnested2 _ _ _ _ (qreach_start _ _ _) R).
    - intros c t k C. split; [assumption|discriminate].
    - intros c l Ix C. split; [assumption|]. intros ->. simpl in Ix. repeat (destruct Ix as [Ix|Ix]; [discriminate|]). contradiction. }
  result (0, 17, 19, @RPlain nat (OGetCloned 3), ROptVal (Some 8)) y J C. exists y. injection C as C1 C2 C3 C4 C5. split; [assumption|]. split; [assumption|]. split; [|assumption]. rewrite C2.
  apply Nat.leb_le. vm_compute. reflexivity.
Qed.
Example C47_visible_example : qexecution ex false [5; 6] 2 8 qend /\ exists x y, In x (q_res qend) /\ In y (q_res qend) /\ vle (p_to x) (p_from y) /\
  rgrows (p_op x) = true /\ p_ret x = RNat 2 /\ 0 < asks (p_op x) /\ p_op y = RPlain (OGetCloned (2 + 0)).
Proof.
  split; [exact qnested_run|]. pose proof qnested_run as X.
  result (0, 5, 8, @RPlain nat (OPush 7), @RNat nat 2) x' Ix' B. result (0, 14, 16, @RPlain nat (OGetCloned 2), ROptVal (Some 7)) y' J' C.
  injection B as B1 B2 B3 B4 B5. injection C as C1 C2 C3 C4 C5. exists x', y'. split; [assumption|]. split; [assumption|].
  split; [apply (C47_order ex false [5; 6] 2 8 qend x' y' X Ix' J'); [rewrite B1, C1; reflexivity|rewrite B3, C2; lia]|]. rewrite B4, B5, C4. split; [reflexivity|]. split; [reflexivity|]. split; [apply Nat.ltb_lt; reflexivity|reflexivity].
Qed.
(** [len] before a closure pushes, and [len] in the closure. *)
Definition qlens : list qitem := qcalls 0 (RPlain (OGet 0)) 0 ++ qcalls 0 (RPlain OLen) 0 ++ qcalls 0 (RElemMap 0) 0 ++ qcalls 0 (RPlain (OPush 7)) 0 ++ qcalls 0 (RPlain OLen) 0.
Definition qlens_end : qcfg nat := qfinal false [5; 6] qlens.
Lemma qlens_results : map brief (q_res qlens_end) =
  [(0, 0, 1, RPlain (OGet 0), ROptElem (Some 0)); (0, 2, 3, RPlain OLen, RNat 2); (0, 5, 8, RPlain (OPush 7), RNat 2); (0, 9, 10, RPlain OLen, RNat 3)].
Proof. vm_compute. reflexivity. Qed.
Example C47_monotone_example : qexecution ex false [5; 6] 2 8 qlens_end /\ exists x y, In x (q_res qlens_end) /\ In y (q_res qlens_end) /\
  vle (p_to x) (p_from y) /\ p_op x = RPlain OLen /\ p_op y = RPlain OLen /\ p_ret x = RNat 2 /\ p_ret y = RNat 3.
Proof.
  assert (X : qexecution ex false [5; 6] 2 8 qlens_end) by (apply qex_final; vm_compute; reflexivity). split; [exact X|].
  assert (H : In (0, 2, 3, @RPlain nat OLen, @RNat nat 2) (map brief (q_res qlens_end))) by (rewrite qlens_results; repeat (first [left; reflexivity|right])).
  assert (K : In (0, 9, 10, @RPlain nat OLen, @RNat nat 3) (map brief (q_res qlens_end))) by (rewrite qlens_results; repeat (first [left; reflexivity|right])).
  apply brief_in in H as (x & Hx & B). apply brief_in in K as (y & Hy & C). injection B as B1 B2 B3 B4 B5. injection C as C1 C2 C3 C4 C5.
  exists x, y. split; [assumption|]. split; [assumption|].
  split; [apply (C47_order ex false [5; 6] 2 8 qlens_end x y X Hx Hy); [rewrite B1, C1; reflexivity|rewrite B3, C2; lia]|].
  split; [assumption|]. split; [assumption|]. split; assumption.
Qed.

Print Assumptions C47_flat.
Print Assumptions C47_transfer.
Print Assumptions C47_no_fault.
Print Assumptions C47_enabled.
Print Assumptions C47_nesting.
Print Assumptions C47_exclusive.
Print Assumptions C47_results.
Print Assumptions C47_order.
Print Assumptions C47_sync.
Print Assumptions C47_visible.
Print Assumptions C47_monotone.
