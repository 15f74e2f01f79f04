(** * What calls wait for over several vectors, under release/acquire. *)

From Coq Require Import List Arith Bool Lia Sorting.Sorted.
From Verif.Model Require Import Prog Mem Deps State Elem Vec Excl Machine Reentrant Network.
From Verif Require Import Client Spec Nested.
From Verif.Logic Require Import Progress Reentry Nesting Network.
From Verif.RA Require Import Weak WTrace WReentrant WNetwork WNested WLent WProject WFlow WStacks WWaits.
Import ListNotations.
Local Notation inside := Nested.inside.
Local Notation overran := Weak.overran.
Local Notation busy := WWaits.busy.
Local Notation lively := WWaits.lively.
Local Notation on_top := WWaits.on_top.

(** ** Vocabulary *)
Section Words.
  Context {V : Type} (E : nat -> env V).
  Implicit Types (c : xcfg V).

  (** The next step of the innermost call of thread [t], over all vectors, is a round of a busy-wait, although it reads
      the newest message. *)
  Definition xwaits c (t : nat) : Prop := exists w id rest, xopen c t = (w, id) :: rest /\ qwaits (E w) (xvecs c w) t.
  (** Call [id] of vector [w] is the innermost unfinished call of thread [t], over all vectors. *)
  Definition xtopmost c (t w id : nat) : Prop := exists rest, xopen c t = (w, id) :: rest.
  (** The calls of each thread that are nested in each other go to vectors with ever higher numbers. *)
  Definition xordered c : Prop := forall t, StronglySorted (fun x y => fst y < fst x) (xopen c t).
  (** A growth call panicked without having made room, since the last [clear] of its vector. *)
  Definition xoverran c : Prop := exists w num id o m, In (num, id, o, m) (q_panics (xvecs c w)) /\ overran (with_answers (fun _ => None) o) m.
  (** No unfinished call is a [swap] that waits for one element while it holds another one. *)
  Definition unswapped c : Prop := forall w t d fr o, runs (xvecs c w) t d fr -> k_op fr = RPlain o -> swaps o = true -> hspin (E w) = false.
  (** From [c] to [c'] without new calls: steps that read the newest messages; closures answer what [say] says. *)
  Inductive xrun (say : xcfg V -> nat -> option (ans V)) c : xcfg V -> Prop :=
  | xrun_start : xrun say c c
  | xrun_step c1 w t c2 : xrun say c c1 -> xstep E c1 (XOn w (QStep t (qfront (xvecs c1 w) t))) = XNext c2 -> xrun say c c2
  | xrun_answer c1 w t c2 : xrun say c c1 -> xstep E c1 (XOn w (QAns t (say c1 t))) = XNext c2 -> xrun say c c2.
End Words.

Section One.
  Context {V : Type} (E : env V).
  Implicit Types (q : qcfg V).

  (** what an access yields does not depend on what the thread knows *)
  Lemma wexec_view id (a : act V) k M tv y M' tv' tv2 y2 M2 tv2' : wexec E id a k M tv = WDone y M' tv' -> wexec E id a k M tv2 = WDone y2 M2 tv2' -> y = y2.
  Proof.
    destruct a; simpl; unfold with_wslot; intros H H2;
      repeat match goal with
        | H : context [if ?b then _ else _] |- _ => let Q := fresh "Q" in destruct b eqn:Q
        | H : context [match ?b with _ => _ end] |- _ => let Q := fresh "Q" in destruct b eqn:Q
        end; try discriminate; try congruence.
    all: exfalso; repeat match goal with H : (_ =? _) = true |- _ => apply Nat.eqb_eq in H end; unfold capv in *; repeat match goal with H : v_cap _ = _ |- _ => rewrite H in * end; congruence.
  Qed.
  Lemma qwaits_rounds q t fr rest a ag k y M tv : stack t (q_run q) = fr :: rest -> k_prog fr = RSpin a ag k ->
    wexec E (k_num fr) a (qfront q t) (q_mem q) (q_view q (agent t (length rest))) = WDone y M tv -> ag y = true -> qwaits E q t.
  Proof. intros St P Ex Ag. unfold qwaits. cbv beta iota zeta delta [qstep]. rewrite St, P, Ex, Ag. reflexivity. Qed.
  Definition rounds q (t : nat) : bool :=
    match stack t (q_run q) with
    | fr :: rest => match k_prog fr with
                    | RSpin a ag _ => match wexec E (k_num fr) a (qfront q t) (q_mem q) (q_view q (agent t (length rest))) with WDone y _ _ => ag y | _ => false end
                    | _ => false
                    end
    | [] => false
    end.
  Lemma rounds_iff q t : rounds q t = true <-> qwaits E q t.
  Proof.
    split.
    - unfold rounds, qwaits. cbv beta iota zeta delta [qstep]. destruct (stack t (q_run q)) as [|fr rest]; [discriminate|].
      destruct (k_prog fr) as [v|m|a k|a ag k|k]; try discriminate. destruct (wexec _ _ _ _ _ _) as [y M tv|f|]; try discriminate. intros ->. reflexivity.
    - intros W. destruct (qstay_inv _ _ _ _ W) as (fr & rest & a & ag & k & y & M & tv & St & P & Ex & Ay). unfold rounds. now rewrite St, P, Ex.
  Qed.
  Lemma qwaits_dec q t : qwaits E q t \/ ~ qwaits E q t.
  Proof. rewrite <- rounds_iff. destruct (rounds q t); [now left|right; discriminate]. Qed.

  Definition qstacked q q' (t : nat) (s : list (qframe V)) : Prop := forall u, stack u (q_run q') = if u =? t then s else stack u (q_run q).
  Lemma qstep_stacks q l q' : qstep E q l = QNext q' ->
    match l with
    | QStep t _ => exists fr rest s, stack t (q_run q) = fr :: rest /\ qstacked q q' t s /\
                     (s = rest \/ exists p, s = QFrame (k_num fr) (k_id fr) (k_op fr) (k_from fr) p :: rest /\ (q' = q \/ rsub p (k_prog fr)))
    | QAns t a => exists fr rest p, stack t (q_run q) = fr :: rest /\ qstacked q q' t (QFrame (k_num fr) (k_id fr) (k_op fr) (k_from fr) p :: rest) /\ rsub p (k_prog fr)
    | _ => True
    end.
  Proof.
    intros S. destruct l as [t o from|t k|t a|t u| |n]; try exact Logic.I; cbv beta iota zeta delta [qstep] in S.
    - destruct (stack t (q_run q)) as [|fr rest] eqn:St; [discriminate|]. exists fr, rest.
      destruct (k_prog fr) as [v|m|a kk|a again kk|kk] eqn:P; [| | | |discriminate].
      1,2: apply qnext_inj in S; subst q'; exists rest; split; [reflexivity|]; split; [|now left]; intros u; cbn [q_run]; apply stack_put.
      + destruct (wexec _ _ _ _ _ _) as [y M tv|x|]; [|discriminate ..]. apply qnext_inj in S; subst q'. eexists. split; [reflexivity|]. split; [intros u; unfold qafter; cbn [q_run]; apply stack_put|].
        right. eexists. split; [reflexivity|]. right. simpl. eauto.
      + destruct (wexec _ _ _ _ _ _) as [y M tv|x|]; [|discriminate ..]. destruct (again y); apply qnext_inj in S; subst q'.
        * exists (fr :: rest). split; [reflexivity|]. split; [intros u; destruct (Nat.eqb_spec u t) as [->|]; [assumption|reflexivity]|].
          right. exists (k_prog fr). split; [now destruct fr|]. now left.
        * eexists. split; [reflexivity|]. split; [intros u; unfold qafter; cbn [q_run]; apply stack_put|]. right. eexists. split; [reflexivity|]. right. simpl. eauto.
    - destruct (stack t (q_run q)) as [|[n id o from [v|m|a' k|a' again k|k]] rest] eqn:St; try discriminate. apply qnext_inj in S; subst q'.
      eexists _, rest, _. split; [reflexivity|]. split; [intros u; cbn [q_run]; apply stack_put|]. simpl. eauto.
  Qed.
  Lemma over_dec (o : rop V) m : overran (with_answers (fun _ => None) o) m \/ ~ overran (with_answers (fun _ => None) o) m.
  Proof.
    unfold overran. destruct m; try (right; intros [?|[? _]]; discriminate); [now left; left|..].
    all: try (destruct (with_answers (fun _ => None) o) eqn:Q; try (right; intros [?|[_ (h & ?)]]; discriminate); left; right; eauto).
  Qed.
  Lemma pans_dec (l : list (nat * nat * rop V * panic)) : (exists num id o m, In (num, id, o, m) l /\ overran (with_answers (fun _ => None) o) m) \/
    ~ exists num id o m, In (num, id, o, m) l /\ overran (with_answers (fun _ => None) o) m.
  Proof.
    induction l as [|[[[num id] o] m] l IH]; [right; intros (? & ? & ? & ? & [] & _)|]. destruct (over_dec o m) as [Y|N]; [left; exists num, id, o, m; split; [now left|assumption]|].
    destruct IH as [(num' & id' & o' & m' & I & Y)|N']; [left; exists num', id', o', m'; split; [now right|assumption]|].
    right. intros (num' & id' & o' & m' & [Q|I] & Y); [injection Q as <- <- <- <-; contradiction|]. apply N'. eauto 6.
  Qed.
End One.

Section All.
  Context {V : Type} (E : nat -> env V) (ro : nat -> bool) (l0 : nat -> list V) (c0 m0 : nat -> nat).
  Implicit Types (c : xcfg V).
  Notation xexec := (xexecution E ro l0 c0 m0).

  (** a thread that waits on a vector waits on it when the vector is seen on its own *)
  Lemma waits_views c w f u : qexecution (E w) (ro w) (l0 w) (c0 w) (m0 w) (set_views (xvecs c w) f) ->
    qwaits (E w) (xvecs c w) u -> qwaits (E w) (set_views (xvecs c w) f) u.
  Proof.
    intros Xf W. destruct (qstay_inv _ _ _ _ W) as (fr & rest & a & ag & k & y & M & tv & St & P & Ex & Ay).
    destruct (q_front_runs (E w) _ _ _ _ (set_views (xvecs c w) f) u fr rest a Xf St) as (y' & M' & tv' & Ex'); [eauto|].
    apply (qwaits_rounds (E w) (set_views (xvecs c w) f) u fr rest a ag k y' M' tv' St P Ex').
    change (qfront (set_views (xvecs c w) f) u) with (qfront (xvecs c w) u) in Ex'. rewrite <- (wexec_view _ _ _ _ _ _ _ _ _ _ _ _ _ Ex Ex'). exact Ay.
  Qed.
  Lemma xwaits_dec c t : xwaits E c t \/ ~ xwaits E c t.
  Proof.
    destruct (xopen c t) as [|[w id] rest] eqn:Cl; [right; intros (w & id & rest & Q & _); congruence|].
    destruct (qwaits_dec (E w) (xvecs c w) t) as [Y|N]; [left; exists w, id, rest; auto|]. right. intros (w' & id' & rest' & Q & S). rewrite Cl in Q. injection Q as <- _ _. contradiction.
  Qed.

  Lemma x_runs c w t d fr : xexec c -> runs (xvecs c w) t d fr ->
    nth_error (q_hist (xvecs c w)) (k_id fr) = Some (NInv (k_id fr) t d (k_op fr)) /\ In (w, k_id fr) (xopen c t).
  Proof.
    intros X F. destruct (x_nest _ _ _ _ _ c w X) as [R N]. apply (frame_rof (xvecs c w)) in F. pose proof (ri_ids _ R _ _ _ F) as I. cbn [frame_of f_id f_op rof rhist] in I.
    split; [exact I|]. apply (x_calls _ _ _ _ _ c t w _ X). exists d, (k_op fr). split; [exact I|]. exact (ne_open _ N _ _ _ F).
  Qed.
  Lemma x_head c t w id rest fr s : xexec c -> xopen c t = (w, id) :: rest -> stack t (q_run (xvecs c w)) = fr :: s -> k_id fr = id /\ map k_id s = owns w rest.
  Proof.
    intros X Cl St. pose proof (x_wired _ _ _ _ _ c X t w) as W. unfold qids in W. rewrite St, Cl, owns_cons in W. cbn [fst snd map] in W. rewrite Nat.eqb_refl in W. injection W as -> ->. auto.
  Qed.
  Lemma x_stack c t w id rest : xexec c -> xopen c t = (w, id) :: rest -> exists fr s, stack t (q_run (xvecs c w)) = fr :: s.
  Proof.
    intros X Cl. pose proof (x_wired _ _ _ _ _ c X t w) as W. unfold qids in W. rewrite Cl, owns_cons in W. cbn [fst] in W. rewrite Nat.eqb_refl in W.
    destruct (stack t (q_run (xvecs c w))) as [|fr s]; [discriminate|eauto].
  Qed.
  (** an innermost call that does not run a closure is the innermost one over all vectors *)
  Lemma x_busy c w t d fr : xexec c -> runs (xvecs c w) t d fr -> busy (xvecs c w) t d -> xtopmost c t w (k_id fr).
  Proof.
    intros X F [T B]. destruct (xtop c t w) eqn:Tp.
    - unfold xtop in Tp. destruct (xopen c t) as [|[w' id] rest] eqn:Cl; [discriminate|]. apply Nat.eqb_eq in Tp as ->. exists rest. rewrite Cl.
      destruct (q_top _ _ _ _ F T) as (s & St & _). destruct (x_head _ _ _ _ _ _ _ X Cl St) as [-> _]. reflexivity.
    - pose proof (li_turn _ (xlined _ _ _ _ _ _ X) t w Tp). congruence.
  Qed.

  Definition xlively c w t d (fr : qframe V) : Prop := on_top (xvecs c w) t d -> qwaits (E w) (xvecs c w) t -> exists o, k_op fr = RPlain o /\ swaps o = true /\ hspin (E w) = true.
  Theorem x_waits_on c t w id rest : xexec c -> xopen c t = (w, id) :: rest -> qwaits (E w) (xvecs c w) t -> exists fr d, runs (xvecs c w) t d fr /\ on_top (xvecs c w) t d /\ k_id fr = id /\
    ((exists i, rtouches (k_op fr) i /\ qstate (xvecs c w) i = RESERVED /\
        (has_lent (q_hist (xvecs c w)) id i \/
         exists t' d' fr', t' <> t /\ runs (xvecs c w) t' d' fr' /\ xlively c w t' d' fr' /\ rtouches (k_op fr') i /\
           (xtopmost c t' w (k_id fr') \/ lends (k_op fr') (length (values_read (q_hist (xvecs c w)) (k_id fr'))) = Some i))) \/
     (rgrows (k_op fr) = true /\ exists b, qreserved (xvecs c w) (k_num fr) b (asks (k_op fr)) /\ qcapacity (xvecs c w) < b /\
        ((exists t' d' fr' b', runs (xvecs c w) t' d' fr' /\ (t' <> t -> on_top (xvecs c w) t' d' -> ~ qwaits (E w) (xvecs c w) t') /\ rgrows (k_op fr') = true /\
            qreserved (xvecs c w) (k_num fr') b' (asks (k_op fr')) /\ b' <= qcapacity (xvecs c w) < b' + asks (k_op fr') /\
            (t' <> t /\ xtopmost c t' w (k_id fr') \/
             k_op fr' = RPushFor /\ (t' = t -> inside (q_hist (xvecs c w)) id (k_id fr') RPushFor))) \/
         (exists num id o m b' n, In (num, id, o, m) (q_panics (xvecs c w)) /\ overran (with_answers (fun _ => None) o) m /\ qreserved (xvecs c w) num b' n /\
            b' <= qcapacity (xvecs c w) < b' + n))) \/
     (exists o1, k_op fr = RPlain o1 /\ self_swap o1 = true /\ hspin (E w) = true)).
  Proof.
    intros X Cl W. destruct (x_proj E ro l0 c0 m0 c t w X) as (f & Xf & _).
    assert (Tr : forall u, qwaits (E w) (xvecs c w) u -> qwaits (E w) (set_views (xvecs c w) f) u) by (intros u; now apply waits_views).
    destruct (q_waits_on (E w) _ _ _ _ _ _ Xf (Tr _ W)) as (fr & d & F & Tp & Q). exists fr, d. split; [exact F|]. split; [exact Tp|].
    destruct (q_top _ _ _ _ F Tp) as (s & St & _). destruct (x_head _ _ _ _ _ _ _ X Cl St) as [Hf _]. split; [exact Hf|]. rewrite Hf in Q.
    destruct Q as [(i & A & B & [Hl|(t' & d' & fr' & Nt & F' & Lv & Ti & Q)])|[(G & b & Rb & Lt & [(t' & d' & fr' & b' & F' & Nw & Gf & Rb' & Hb & Q)|Q])|Q]].
    - left. exists i. split; [exact A|]. split; [exact B|]. left. exact Hl.
    - left. exists i. split; [exact A|]. split; [exact B|]. right. exists t', d', fr'. split; [exact Nt|]. split; [exact F'|]. split; [|split; [exact Ti|]].
      + intros T' W'. exact (Lv T' (Tr _ W')).
      + destruct Q as [Q|Q]; [left|right; exact Q]. eapply x_busy; [exact X|exact F'|exact Q].
    - right. left. split; [exact G|]. exists b. split; [exact Rb|]. split; [exact Lt|]. left. exists t', d', fr', b'. split; [exact F'|].
      split; [intros Nt T' W'; exact (Nw Nt T' (Tr _ W'))|]. split; [exact Gf|]. split; [exact Rb'|]. split; [exact Hb|].
      destruct Q as [[Nt Q]|Q]; [left|right; exact Q]. split; [exact Nt|]. eapply x_busy; [exact X|exact F'|exact Q].
    - right. left. split; [exact G|]. exists b. split; [exact Rb|]. split; [exact Lt|]. right. exact Q.
    - right. right. exact Q.
  Qed.

  Lemma x_on_top c w t d fr : xexec c -> runs (xvecs c w) t d fr -> xtopmost c t w (k_id fr) -> on_top (xvecs c w) t d.
  Proof.
    intros X F (rest & Cl). destruct (x_stack _ _ _ _ _ X Cl) as (fr2 & s2 & S2). destruct (x_head _ _ _ _ _ _ _ X Cl S2) as [Hf2 _].
    assert (F2 : runs (xvecs c w) t (length s2) fr2) by (unfold runs; rewrite S2; apply top_frame'). destruct (x_runs _ _ _ _ _ X F2) as [Hi2 _]. destruct (x_runs _ _ _ _ _ X F) as [Hi _].
    rewrite Hf2, Hi in Hi2. injection Hi2 as Hd _. unfold on_top. rewrite S2, Hd. reflexivity.
  Qed.
  Lemma x_qwaits c t w id rest : xopen c t = (w, id) :: rest -> xwaits E c t -> qwaits (E w) (xvecs c w) t.
  Proof. intros Cl (w3 & id3 & rest3 & C3 & S3). rewrite Cl in C3. injection C3 as <- <- <-. exact S3. Qed.

  (** ** Orders *)
  Lemma xstep_inv c v l c' : xstep E c (XOn v l) = XNext c' -> xmay c v l = true /\ exists q, qstep (E v) (xvecs c v) l = QNext q /\ xvecs c' = vecs_after E c v l q /\ xopen c' = xcalls c v l q.
  Proof.
    cbn [xstep]. destruct (xmay c v l) eqn:May; [|discriminate]. destruct (qstep (E v) (xvecs c v) l) as [q|f|] eqn:St; try discriminate. intros S. injection S as <-. split; [reflexivity|]. exists q. auto.
  Qed.
  Lemma x_bound c : xexec c -> exists n, forall t w id, In (w, id) (xopen c t) -> w < n.
  Proof.
    intros [_ R]. induction R as [|c1 l c2 R (n & IH) C S]; [exists 0; intros ? ? ? []|]. destruct l as [v l|t0 u].
    2:{ cbn [xstep] in S. destruct (xturn c1 t0); [|discriminate]. injection S as <-. exists n. exact IH. }
    destruct (xstep_inv _ _ _ _ S) as (_ & q & _ & _ & Op). exists (Nat.max n (Datatypes.S v)). intros t w id. rewrite Op.
    assert (K : forall t, In (w, id) (xopen c1 t) -> w < Nat.max n (Datatypes.S v)) by (intros u I; apply IH in I; lia).
    destruct l as [u o from|u k|u a|u u'| |k]; cbn [xcalls]; try apply K.
    - unfold set_at. destruct (t =? u); [|apply K]. intros [I|I]; [injection I as <- _; lia|exact (K _ I)].
    - destruct (_ <? _); [|apply K]. unfold set_at. destruct (t =? u); [|apply K]. intros I. apply (K u). destruct (xopen c1 u); [destruct I|now right].
  Qed.
  Lemma x_threads c : xexec c -> exists n, forall t, n <= t -> xopen c t = [].
  Proof.
    intros [_ R]. induction R as [|c1 l c2 R (n & IH) C S]; [exists 0; reflexivity|]. destruct l as [v l|t0 u].
    2:{ cbn [xstep] in S. destruct (xturn c1 t0); [|discriminate]. injection S as <-. exists n. exact IH. }
    destruct (xstep_inv _ _ _ _ S) as (_ & q & _ & _ & Op). exists (match l with QInv t _ _ => Nat.max n (Datatypes.S t) | _ => n end). intros t L. rewrite Op.
    destruct l as [u o from|u k|u a|u u'| |k]; cbn [xcalls]; auto.
    - unfold set_at. destruct (Nat.eqb_spec t u); [lia|]. apply IH. lia.
    - destruct (_ <? _); [|auto]. unfold set_at. destruct (Nat.eqb_spec t u) as [->|]; [|auto]. rewrite IH by assumption. reflexivity.
  Qed.
  Lemma sorted_owns w id rest : StronglySorted (fun x y : nat * nat => fst y < fst x) ((w, id) :: rest) -> owns w rest = [].
  Proof.
    intros S. inversion S as [|? ? _ F]. subst. unfold owns. replace (filter (fun x => fst x =? w) rest) with (@nil (nat * nat)); [reflexivity|].
    symmetry. clear S. induction F as [|[w' id'] rest L F IH]; [reflexivity|]. simpl in *. destruct (Nat.eqb_spec w' w); [lia|assumption].
  Qed.
  Lemma swap_self (o : op V) : self_swap o = true -> swaps o = true.
  Proof. destruct o; try discriminate; [reflexivity|]. destruct o; try discriminate. reflexivity. Qed.

  Theorem x_ordered c t : xexec c -> unswapped E c -> xordered c -> ~ xoverran c -> xopen c t <> [] -> exists t', xopen c t' <> [] /\ ~ xwaits E c t'.
  Proof.
    intros X Hn Od Ng Hc. destruct (xwaits_dec c t) as [Wt|]; [|eauto]. destruct (x_bound c X) as (n & Bd).
    assert (K : forall k t w id rest, n - w <= k -> xopen c t = (w, id) :: rest -> xwaits E c t -> exists t', xopen c t' <> [] /\ ~ xwaits E c t').
    { clear t Hc Wt. induction k as [|k IH]; intros t w id rest Lk Cl Wt.
      { exfalso. assert (w < n) by (apply (Bd t w id); rewrite Cl; now left). lia. }
      destruct Wt as (w' & id' & rest' & Cl' & W). rewrite Cl in Cl'. injection Cl' as <- <- <-.
      destruct (x_waits_on c t w id rest X Cl W) as (fr & d & F & Tp & Hf & Q).
      assert (D0 : d = 0).
      { destruct (q_top _ _ _ _ F Tp) as (s & St & ->). destruct (x_head _ _ _ _ _ _ _ X Cl St) as [_ Hs]. pose proof (Od t) as Ot. rewrite Cl in Ot. rewrite (sorted_owns _ _ _ Ot) in Hs.
        apply map_eq_nil in Hs. now subst s. }
      subst d. destruct (x_runs _ _ _ _ _ X F) as [Hi _]. rewrite Hf in Hi.
      assert (Ni : forall id1 o, ~ inside (q_hist (xvecs c w)) id id1 o) by (intros id1 o (t1 & d1 & d2 & o2 & L & _ & I2); rewrite Hi in I2; injection I2 as <- <- <-; lia).
      assert (Next : forall t' d' fr', runs (xvecs c w) t' d' fr' -> xlively c w t' d' fr' -> exists t', xopen c t' <> [] /\ ~ xwaits E c t').
      { intros t' d' fr' F' Lv. destruct (x_runs _ _ _ _ _ X F') as [Hi' I]. destruct (xopen c t') as [|[w2 id2] rest2] eqn:C2; [destruct I|].
        destruct (xwaits_dec c t') as [W2|]; [|exists t'; split; [congruence|assumption]].
        destruct I as [I|I].
        - injection I as -> ->. exfalso. destruct W2 as (w3 & id3 & rest3 & C3 & S3). rewrite C2 in C3. injection C3 as <- <- <-.
          destruct (x_stack _ _ _ _ _ X C2) as (fr2 & s2 & S2). destruct (x_head _ _ _ _ _ _ _ X C2 S2) as [Hf2 _].
          assert (F2 : runs (xvecs c w) t' (length s2) fr2) by (unfold runs; rewrite S2; apply top_frame'). destruct (x_runs _ _ _ _ _ X F2) as [Hi2 _].
          rewrite Hf2, Hi' in Hi2. injection Hi2 as Hd _. assert (Tp' : on_top (xvecs c w) t' d') by (unfold on_top; rewrite S2, Hd; reflexivity).
          destruct (Lv Tp' S3) as (o & Ho & Sw & Hsp). pose proof (Hn _ _ _ _ _ F' Ho Sw). congruence.
        - pose proof (Od t') as O2. rewrite C2 in O2. inversion O2 as [|? ? _ Fa]. subst. rewrite Forall_forall in Fa. specialize (Fa _ I). simpl in Fa.
          assert (w2 < n) by (apply (Bd t' w2 id2); rewrite C2; now left). apply (IH t' w2 id2 rest2); [lia|assumption|assumption]. }
      destruct Q as [(i & _ & _ & [(id1 & o & In1 & _)|(t' & d' & fr' & _ & F' & Lv & _)])|[(_ & b & _ & _ & [(t' & d' & fr' & b' & F' & Nw & _ & _ & _ & Q)|(num & id1 & o & m & b' & n1 & Hin & Ov & _)])|(o1 & Ho & Ss & Hsp)]].
      - destruct (Ni _ _ In1).
      - eapply Next; eauto.
      - apply (Next t' d' fr' F'). intros Tp' W'. exfalso. revert Tp' W'. apply Nw. destruct Q as [[Nt _]|[_ Q]]; [exact Nt|]. intros e. exact (Ni _ _ (Q e)).
      - destruct Ng. exists w, num, id1, o, m. auto.
      - exfalso. pose proof (Hn _ _ _ _ _ F Ho (swap_self _ Ss)). congruence. }
    destruct Wt as (w & id & rest & Cl & S). apply (K n t w id rest); [lia|assumption|]. exists w, id, rest. auto.
  Qed.

  (** ** What the calls have left to do *)
  Definition xleft_of c t (x : nat * nat) : option (rprog V (ret V)) :=
    Datatypes.option_map k_prog (find (fun fr => k_id fr =? snd x) (stack t (q_run (xvecs c (fst x))))).
  Definition xleft c t : list (option (rprog V (ret V))) := map (xleft_of c t) (xopen c t).

  (** a step of the innermost call, or an answer to it *)
  Lemma xleft_step c w t l c' rest id : xexec c -> (exists k, l = QStep t k /\ qstep (E w) (xvecs c w) l <> QNext (xvecs c w)) \/ (exists a, l = QAns t a) ->
    xstep E c (XOn w l) = XNext c' -> xopen c t = (w, id) :: rest ->
    (forall u, u <> t -> xopen c' u = xopen c u /\ xleft c' u = xleft c u) /\ fewer (xleft c' t) (xleft c t) /\
    (xopen c' t = (w, id) :: rest \/ xopen c' t = rest) /\
    (forall w1 u d1 fr1, runs (xvecs c' w1) u d1 fr1 -> exists fr0, runs (xvecs c w1) u d1 fr0 /\ k_op fr0 = k_op fr1).
  Proof.
    intros X Hl S Cl. destruct (xstep_inv _ _ _ _ S) as (_ & q & Sq & Hv & Ho).
    assert (K : exists fr s p, stack t (q_run (xvecs c w)) = fr :: s /\
              (qstacked (xvecs c w) q t s /\ xcalls c w l q = set_at (xopen c) t rest \/
               qstacked (xvecs c w) q t (QFrame (k_num fr) (k_id fr) (k_op fr) (k_from fr) p :: s) /\ xcalls c w l q = xopen c /\ rsub p (k_prog fr))).
    { pose proof (qstep_stacks _ _ _ _ Sq) as K. destruct Hl as [(k & -> & Ne)|(a & ->)].
      - destruct K as (fr & s & s' & St & K & Q). exists fr, s. cbn [xcalls]. rewrite (K t), Nat.eqb_refl, St, Cl.
        destruct Q as [->|(p & -> & [->|Q])]; [exists (k_prog fr)|contradiction|exists p].
        + split; [reflexivity|]. left. split; [assumption|]. replace (length s <? length (fr :: s)) with true by (symmetry; apply Nat.ltb_lt; simpl; lia). reflexivity.
        + split; [reflexivity|]. right. split; [assumption|]. split; [|assumption].
          replace (length (QFrame (k_num fr) (k_id fr) (k_op fr) (k_from fr) p :: s) <? length (fr :: s)) with false by (symmetry; apply Nat.ltb_ge; simpl; lia). reflexivity.
      - destruct K as (fr & s & p & St & K & Q). exists fr, s, p. split; [assumption|]. right. auto. }
    destruct K as (fr & s & p & St & K). destruct (x_head _ _ _ _ _ _ _ X Cl St) as [Hf _]. rewrite <- Ho in K.
    assert (Hw : q_run (xvecs c' w) = q_run q) by (rewrite Hv, after_own; reflexivity).
    assert (Hn : forall w1, w1 <> w -> q_run (xvecs c' w1) = q_run (xvecs c w1)) by (intros w1 N; rewrite Hv; now apply after_run).
    assert (Ot : forall u s' x, u <> t -> qstacked (xvecs c w) q t s' -> xleft_of c' u x = xleft_of c u x).
    { intros u s' [w1 id1] Nu Sk. unfold xleft_of. cbn [fst snd]. destruct (Nat.eq_dec w1 w) as [->|Nw]; [rewrite Hw, Sk|rewrite Hn by assumption; reflexivity].
      destruct (Nat.eqb_spec u t); [contradiction|reflexivity]. }
    assert (Nin : ~ In (w, id) rest).
    { intros I. pose proof (ids_nodup _ _ _ _ _ c t w X) as Nd. rewrite (x_wired _ _ _ _ _ c X t w), Cl, owns_cons in Nd. cbn [fst snd] in Nd. rewrite Nat.eqb_refl in Nd.
      inversion Nd as [|? ? N1 _]. apply N1. now apply owns_in. }
    assert (Un : forall x s', In x rest -> qstacked (xvecs c w) q t s' -> (s' = s \/ s' = QFrame (k_num fr) (k_id fr) (k_op fr) (k_from fr) p :: s) -> xleft_of c' t x = xleft_of c t x).
    { intros [w1 id1] s' Ix Sk Hs. unfold xleft_of. cbn [fst snd]. destruct (Nat.eq_dec w1 w) as [->|Nw]; [rewrite Hw, Sk, Nat.eqb_refl, St|rewrite Hn by assumption; reflexivity].
      assert (N : (k_id fr =? id1) = false). { apply Nat.eqb_neq. intros e. apply Nin. now rewrite <- Hf, e. }
      destruct Hs as [->| ->]; cbn [find k_id]; rewrite N; reflexivity. }
    assert (Top : xleft_of c t (w, id) = Some (k_prog fr)).
    { unfold xleft_of. cbn [fst snd]. rewrite St. cbn [find]. now rewrite Hf, Nat.eqb_refl. }
    assert (Fr : forall s', qstacked (xvecs c w) q t s' -> (s' = s \/ s' = QFrame (k_num fr) (k_id fr) (k_op fr) (k_from fr) p :: s) ->
      forall w1 u d1 fr1, runs (xvecs c' w1) u d1 fr1 -> exists fr0, runs (xvecs c w1) u d1 fr0 /\ k_op fr0 = k_op fr1).
    { intros s' Sk Hs w1 u d1 fr1 F. unfold runs in *. destruct (Nat.eq_dec w1 w) as [->|Nw]; [|rewrite Hn in F by assumption; eauto]. rewrite Hw, Sk in F.
      destruct (Nat.eqb_spec u t) as [->|]; [|eauto]. rewrite St. destruct Hs as [->| ->].
      - exists fr1. split; [|reflexivity]. pose proof (frame_len _ _ _ F). rewrite under' by lia. exact F.
      - pose proof (frame_len _ _ _ F) as L. simpl in L. destruct (Nat.eq_dec d1 (length s)) as [->|Nd].
        + rewrite top_frame' in F. injection F as <-. exists fr. split; [apply top_frame'|reflexivity].
        + exists fr1. rewrite under' in * by assumption. auto. }
    destruct K as [[Sk Hc]|(Sk & Hc & Sb)].
    - split; [|split; [|split]].
      + intros u Nu. unfold xleft. rewrite Hc, set_there by assumption. split; [reflexivity|]. apply map_ext. intros x. now apply (Ot u s).
      + unfold xleft. rewrite Hc, set_here, Cl. cbn [map]. replace (map (xleft_of c' t) rest) with (map (xleft_of c t) rest); [apply fewer_end|].
        apply map_ext_in. intros x Ix. symmetry. apply (Un x s); auto.
      + right. now rewrite Hc, set_here.
      + apply (Fr s); auto.
    - split; [|split; [|split]].
      + intros u Nu. unfold xleft. rewrite Hc. split; [reflexivity|]. apply map_ext. intros x. now apply (Ot u (QFrame (k_num fr) (k_id fr) (k_op fr) (k_from fr) p :: s)).
      + unfold xleft. rewrite Hc, Cl. cbn [map]. rewrite Top.
        replace (xleft_of c' t (w, id)) with (Some p).
        2:{ unfold xleft_of. cbn [fst snd]. rewrite Hw, Sk, Nat.eqb_refl. cbn [find k_id]. now rewrite Hf, Nat.eqb_refl. }
        replace (map (xleft_of c' t) rest) with (map (xleft_of c t) rest); [now apply fewer_sub|].
        apply map_ext_in. intros x Ix. symmetry. apply (Un x (QFrame (k_num fr) (k_id fr) (k_op fr) (k_from fr) p :: s)); auto.
      + left. now rewrite Hc.
      + eapply Fr; eauto.
  Qed.
  Lemma after_panics c v l q w : w <> v -> q_panics (vecs_after E c v l q w) = q_panics (xvecs c w).
  Proof. intros N. unfold vecs_after. destruct (Nat.eqb_spec w v); [contradiction|]. destruct (by_thread l); [|reflexivity]. destruct (e_acq _); reflexivity. Qed.
  Lemma xcalm_step c v l c' : ~ xoverran c -> xstep E c (XOn v l) = XNext c' -> xoverran c' \/ ~ xoverran c'.
  Proof.
    intros N S. destruct (xstep_inv _ _ _ _ S) as (_ & q & _ & Hv & _). destruct (pans_dec (q_panics q)) as [(num & id & o & m & Y)|Nq].
    - left. exists v, num, id, o, m. rewrite Hv, after_own. exact Y.
    - right. intros (w & num & id & o & m & I & Y). rewrite Hv in I. destruct (Nat.eq_dec w v) as [->|Nw]; [rewrite after_own in I; apply Nq; eauto 6|].
      rewrite after_panics in I by assumption. apply N. exists w, num, id, o, m. auto.
  Qed.
  Lemma xexec_step c l c' : xexec c -> xclient E ro c l -> xstep E c l = XNext c' -> xexec c'.
  Proof. intros [A R] C S. split; [assumption|]. eapply xreach_step; eauto. Qed.

  Theorem x_ends c say : xexec c -> unswapped E c -> xordered c -> ~ xoverran c ->
    exists c', xrun E say c c' /\ xexec c' /\ ((forall t, xopen c' t = []) \/ xoverran c').
  Proof.
    intros X Hn Od Gp. destruct (x_threads c X) as (n & Th).
    remember (map (xleft c) (seq 0 n)) as l eqn:Hl. revert c X Hn Od Gp Th Hl.
    induction (one_less_wf fewer fewer_wf l) as [l _ IH]. intros c X Hn Od Gp Th Hl.
    destruct (existsb (fun t => match xopen c t with [] => false | _ => true end) (seq 0 n)) eqn:Ex.
    2:{ exists c. split; [constructor|]. split; [assumption|]. left. intros t. destruct (le_lt_dec n t) as [L|L]; [auto|]. destruct (xopen c t) eqn:Cl; [reflexivity|]. exfalso.
        assert (K : existsb (fun t => match xopen c t with [] => false | _ => true end) (seq 0 n) = true) by (apply existsb_exists; exists t; split; [apply in_seq; lia|now rewrite Cl]).
        congruence. }
    apply existsb_exists in Ex as (t0 & _ & Ex).
    destruct (x_ordered c t0 X Hn Od Gp) as (t & Hc & Nw); [intros Q; rewrite Q in Ex; discriminate|].
    destruct (xopen c t) as [|[w id] rest] eqn:Cl; [contradiction|].
    assert (St : exists l c', (l = QStep t (qfront (xvecs c w) t) /\ qstep (E w) (xvecs c w) l <> QNext (xvecs c w) \/ l = QAns t (say c t)) /\ xstep E c (XOn w l) = XNext c').
    { assert (Ns : qstep (E w) (xvecs c w) (QStep t (qfront (xvecs c w) t)) <> QNext (xvecs c w)) by (intros S; apply Nw; exists w, id, rest; auto).
      assert (Nt : xtop c t w = true) by (unfold xtop; rewrite Cl; apply Nat.eqb_refl).
      destruct (x_stack _ _ _ _ _ X Cl) as (fr & s & Sk).
      assert (Go : (exists q, qstep (E w) (xvecs c w) (QStep t (qfront (xvecs c w) t)) = QNext q) \/ exists k, k_prog fr = RClo k).
      { destruct (x_proj E ro l0 c0 m0 c t w X) as (f & Xf & Ag & _).
        assert (Run : forall a, (exists k, k_prog fr = RAct a k) \/ (exists ag k, k_prog fr = RSpin a ag k) ->
          exists y M tv, wexec (E w) (k_num fr) a (qfront (xvecs c w) t) (q_mem (xvecs c w)) (q_view (xvecs c w) (agent t (length s))) = WDone y M tv).
        { intros a P. destruct (q_front_runs (E w) _ _ _ _ (set_views (xvecs c w) f) t fr s a Xf Sk P) as (y & M & tv & Ex1). exists y, M, tv. rewrite <- (Ag (length s)). exact Ex1. }
        destruct (k_prog fr) as [v|m|a k|a ag k|k] eqn:P; [left ..|right; eauto]; cbv beta iota zeta delta [qstep]; rewrite Sk, P; [eauto|eauto|..].
        - destruct (Run a) as (y & M & tv & ->); [eauto|]. eauto.
        - destruct (Run a) as (y & M & tv & ->); [eauto|]. destruct (ag y); eauto. }
      destruct Go as [(q & Sq)|(k & P)].
      - exists (QStep t (qfront (xvecs c w) t)). eexists. split; [left; split; [reflexivity|exact Ns]|]. cbn [xstep xmay]. rewrite Nt, Sq. reflexivity.
      - exists (QAns t (say c t)). destruct fr as [num i o from p]. cbn [k_prog] in P. subst p. eexists. split; [right; reflexivity|]. cbn [xstep xmay]. rewrite Nt.
        cbv beta iota zeta delta [qstep]. rewrite Sk. reflexivity. }
    destruct St as (lb & c1 & Hlb & S).
    assert (X1 : xexec c1). { eapply xexec_step; [exact X| |exact S]. destruct Hlb as [[-> _]| ->]; exact Logic.I. }
    assert (R1 : xrun E say c c1). { destruct Hlb as [[-> _]| ->]; [eapply xrun_step|eapply xrun_answer]; try exact S; constructor. }
    destruct (xleft_step c w t lb c1 rest id X) as (Ot & Fw & Cs & Fr); [destruct Hlb as [H|H]; [left; eauto|right; eauto]|exact S|exact Cl|].
    destruct (xcalm_step _ _ _ _ Gp S) as [G1|G1]; [exists c1; auto|].
    assert (Lt : t < n). { destruct (le_lt_dec n t) as [L|L]; [|assumption]. rewrite (Th t L) in Cl. discriminate. }
    destruct (IH (map (xleft c1) (seq 0 n))) with (c := c1) as (c2 & R2 & X2 & Q); [|exact X1| | |exact G1| |reflexivity|].
    - rewrite Hl. destruct (in_split t (seq 0 n)) as (a & b & Hs); [apply in_seq; lia|]. pose proof (seq_NoDup n 0) as Nd. rewrite Hs in *. apply NoDup_remove_2 in Nd.
      rewrite !map_app. cbn [map]. rewrite (map_ext_in (xleft c1) (xleft c) a), (map_ext_in (xleft c1) (xleft c) b); [constructor; exact Fw| |];
        intros u Iu; apply Ot; intros ->; apply Nd, in_or_app; auto.
    - intros w1 u d1 fr1 o1 F1 Ho1 Sw. destruct (Fr _ _ _ _ F1) as (fr0 & F0 & E0). rewrite <- E0 in Ho1. exact (Hn _ _ _ _ _ F0 Ho1 Sw).
    - intros u. destruct (Nat.eq_dec u t) as [->|Nu]; [|rewrite (proj1 (Ot u Nu)); apply Od]. pose proof (Od t) as O. rewrite Cl in O.
      destruct Cs as [->| ->]; [assumption|]. now inversion O.
    - intros u L. rewrite (proj1 (Ot u ltac:(lia))). auto.
    - exists c2. split; [|auto]. clear - R1 R2. induction R2 as [|c3 w3 t3 c4 R IH' S3|c3 w3 t3 c4 R IH' S3]; [assumption|eapply xrun_step; eauto|eapply xrun_answer; eauto].
  Qed.
End All.
