(** * C51: closures that use other vectors. *)

From Coq Require Import List Arith Bool Lia Sorted.
From Verif.Model Require Import Prog Mem Deps State Elem Vec Excl Machine Reentrant Network.
From Verif Require Import Client Spec Nested Net.
From Verif.Logic Require Import Inv WP Post Specs Ops Sound Shape Clients Hist Locks Facts Trace Progress Gaps Borrows Reentry Nesting Inner Network.
From Verif.Properties Require Import Examples Reentrant Inner.
Import ListNotations.

Section Network.
  Context {V : Type} (E : nat -> env V) (ro nl : nat -> bool) (l0 : nat -> list V) (c0 m0 : nat -> nat).
  Implicit Types (c : ncfg V).
  Notation nexec := (nexecution E ro nl l0 c0 m0).

  (** What happens to one vector is an execution of that vector alone, as in C45 and C46 ... *)
  Theorem C51_vectors c w : nexec c -> rexecution (E w) (ro w) (nl w) (l0 w) (c0 w) (m0 w) (vecs c w).
  Proof. apply net_vector. Qed.
  (** ... so what holds for the histories and states of executions with closures that are functions holds for each
      of the vectors. *)
  Theorem C51_flat c w (P : shared V -> list (event V) -> Prop) : nexec c ->
    (forall x, execution (E w) (ro w) (nl w) (l0 w) (c0 w) (m0 w) x -> P (sh x) (hist x)) -> P (rsh (vecs c w)) (flatten (vecs c w)).
  Proof. intros X H. eapply C45_transfer; [apply net_vector; exact X|exact H]. Qed.

  (** Nothing closures do with other vectors leads to undefined behaviour. *)
  Theorem C51_no_fault c w l f : nexec c -> rclient (E w) (ro w) (nl w) (length (l0 w)) (vecs c w) l -> nstep E c w l <> NFault f.
  Proof.
    intros X C S. unfold nstep in S. destruct (nmay c w l); [|discriminate]. destruct (rstep (E w) (vecs c w) l) eqn:Sr; try discriminate.
    now apply (C45_no_fault _ _ _ _ _ _ _ (net_vector _ _ _ _ _ _ c w X) l f0 C).
  Qed.

  (** [unfinished] has the calls that have started and not ended. *)
  Theorem C51_calls c t w id : nexec c -> In (w, id) (unfinished c t) <-> exists d o, ropen (rhist (vecs c w)) id t d o.
  Proof.
    intros X. pose proof (net_vector _ _ _ _ _ _ c w X) as Xw. split.
    - intros I. destruct (call_frame _ _ _ _ _ _ c t w id X I) as (d & fr & F & <-). exists d, (f_op fr). exact (frame_open _ _ _ _ _ _ _ _ _ _ Xw F).
    - intros (d & o & O). destruct (nest_of _ _ _ _ _ _ _ Xw) as [_ Ne]. destruct (ne_frame _ Ne _ _ _ _ O) as (fr & F & <- & _).
      exact (frame_call _ _ _ _ _ _ _ _ _ _ _ X F).
  Qed.

  (** The call around an unfinished call has not ended, and it makes no access and does not end while that call is
      unfinished, whatever the vectors of the two. *)
  Theorem C51_nesting c w l c' w2 id2 w1 id1 : nexec c -> within c w2 id2 w1 id1 -> nstep E c w l = NNext c' ->
    rdone (rhist (vecs c' w1)) id1 = false /\ raccs (rhist (vecs c' w1)) id1 = raccs (rhist (vecs c w1)) id1.
  Proof.
    intros X (t & h & rest & Cl & I) S.
    assert (K : exists x rest', unfinished c t = x :: rest' /\ In (w1, id1) rest').
    { destruct h as [|y h]; [eexists _, rest; split; [exact Cl|assumption]|]. eexists y, _. split; [exact Cl|]. apply in_or_app. right. now right. }
    destruct K as (x & rest' & Cl' & I'). assert (O : rdone (rhist (vecs c w1)) id1 = false).
    { eapply (call_old E ro nl l0 c0 m0 c t); [assumption|]. rewrite Cl'. now right. }
    destruct (silent _ _ _ _ _ _ _ _ _ _ _ _ _ _ _ X S Cl' I') as [Hh|(e & Hh & Ne)]; rewrite Hh; [auto|]. split.
    - rewrite rdone_snoc, O. destruct e; try reflexivity; simpl in *; destruct (Nat.eqb_spec id id1); congruence.
    - rewrite raccs_app. replace (raccs [e] id1) with (@nil (acc V)); [apply app_nil_r|]. symmetry. apply raccs_fresh. intros e' [<-|[]]. assumption.
  Qed.

  (** ** Waiting *)

  (** A call that waits, waits for another call of the same vector: one that uses the element it needs, or has the position
      it needs room at; this call is the innermost one of another thread, over all vectors, or it lends that
      element to its closure (a [push_for_idx]: it runs its closure), which may be inside a call of any
      vector.  Or it waits for a position that was abandoned, or it is [swap(i,i)]. *)
  Theorem C51_waits c t : nexec c -> nwaits E c t -> exists w id rest d o, unfinished c t = (w, id) :: rest /\ ropen (rhist (vecs c w)) id t d o /\
    ((exists i id' t' d' o', rtouches o i /\ id' <> id /\ ropen (rhist (vecs c w)) id' t' d' o' /\ rtouches o' i /\
        (t' <> t /\ topmost c w id' \/ lends o' (length (values_read (rhist (vecs c w)) id')) = Some i)) \/
     (rgrows o = true /\ exists b, took (rhist (vecs c w)) id b (asks o) /\ cap (rsh (vecs c w)) < b /\
        ((exists id' t' d' o', id' <> id /\ ropen (rhist (vecs c w)) id' t' d' o' /\ rgrows o' = true /\
            a_pos (replay (abs0 (l0 w) (m0 w)) (flatten (vecs c w))) (cap (rsh (vecs c w))) = Reserved id' /\
            (t' <> t /\ topmost c w id' \/ o' = RPushFor /\ took (rhist (vecs c w)) id' (cap (rsh (vecs c w))) 1)) \/
         a_pos (replay (abs0 (l0 w) (m0 w)) (flatten (vecs c w))) (cap (rsh (vecs c w))) = Abandoned)) \/
     (exists o1, o = RPlain o1 /\ self_swap o1 = true /\ hspin (E w) = true)).
  Proof.
    intros X (w & id & rest & Cl & S). pose proof (net_vector _ _ _ _ _ _ c w X) as Xw. pose proof (net_wired _ _ _ _ _ _ c X) as W.
    destruct (nest_of _ _ _ _ _ _ _ Xw) as [Ri _].
    destruct (waits_frame _ _ _ _ _ _ _ _ Xw S) as (fr & s & St & Q). destruct (top_id _ _ _ _ _ _ _ W Cl St) as [Hf _].
    assert (F : frame_at (stack t (rrun (vecs c w))) (length s) = Some fr) by (rewrite St; apply top_frame).
    exists w, id, rest, (length s), (f_op fr). split; [assumption|]. rewrite <- Hf. split; [eapply frame_open; eauto|].
    assert (K : forall t' d' fr', frame_at (stack t' (rrun (vecs c w))) d' = Some fr' -> (t' = t -> d' < length s) ->
                  f_id fr' <> f_id fr /\ ((t' <> t /\ topmost c w (f_id fr')) \/ exists k, f_prog fr' = RClo k)).
    { intros t' d' fr' F' Lt. assert (N : f_id fr' <> f_id fr).
      { intros e. destruct (ids_differ _ _ _ _ _ _ _ Ri F' F e) as [-> ->]. specialize (Lt eq_refl). lia. }
      split; [assumption|]. destruct (wi_susp _ W t' w fr') as [(r2 & Cl')|?]; [apply in_frame; eauto| |auto]. left. split; [|exists t', r2; assumption].
      intros ->. rewrite Cl in Cl'. injection Cl' as Hi _. congruence. }
    destruct Q as [(i & t' & d' & fr' & T & Lt & F' & T' & Le & _)|[(G & b & Tk & Lc & Q)|(o1 & H)]].
    - left. destruct (K _ _ _ F' Lt) as [N D]. exists i, (f_id fr'), t', d', (f_op fr'). split; [assumption|]. split; [assumption|]. split; [eapply frame_open; eauto|].
      split; [assumption|]. destruct D as [D|(k & D)]; [auto|]. right. eauto.
    - right. left. split; [assumption|]. exists b. split; [assumption|]. split; [assumption|]. destruct Q as [(t' & d' & fr' & Lt & F' & G' & Rs & Le & _)|Q]; [left|now right].
      destruct (K _ _ _ F' Lt) as [N D]. exists (f_id fr'), t', d', (f_op fr'). split; [assumption|]. split; [eapply frame_open; eauto|]. split; [assumption|]. split; [assumption|].
      destruct D as [D|(k & D)]; [auto|]. right. eauto.
    - right. right. eauto.
  Qed.

  (** ** Deadlocks *)
  Lemma no_swap w r id t d o : rexecution (E w) (ro w) (nl w) (l0 w) (c0 w) (m0 w) r -> nl w = true -> nth_error (rhist r) id = Some (NInv id t d (RPlain o)) ->
    swaps o = true -> hspin (E w) = false.
  Proof.
    intros X Hn I Sw. destruct (C45_flat _ _ _ _ _ _ _ X) as (x & Xx & Hh & _). destruct (execution_expl _ _ _ _ _ _ _ Xx) as (snap & Ex & _).
    assert (Ei : nth_error (hist x) id = Some (EInv id (agent t d) o)) by (rewrite Hh; unfold flatten; rewrite flat_nth, I; reflexivity).
    destruct (h_ev _ _ _ _ _ _ _ Ex _ _ Ei) as (_ & _ & _ & Al). destruct Al as (_ & _ & _ & Al). auto.
  Qed.
  Lemma swap_self (o : op V) : self_swap o = true -> swaps o = true.
  Proof. destruct o; try discriminate; [reflexivity|]. destruct o; try discriminate. reflexivity. Qed.
  Lemma sorted_own w id rest : StronglySorted (fun x y : nat * nat => fst y < fst x) ((w, id) :: rest) -> own w rest = [].
  Proof.
    intros S. inversion S as [|? ? _ F]. subst. unfold own. replace (filter (fun x => fst x =? w) rest) with (@nil (nat * nat)); [reflexivity|].
    symmetry. clear S. induction F as [|[w' id'] rest L F IH]; [reflexivity|]. simpl in *. destruct (Nat.eqb_spec w' w); [lia|assumption].
  Qed.

  (** If closures only use vectors with higher numbers than the ones they are called by, and no call waits for
      an element while it holds another one ([swap]), and no growth call has panicked without having made room: then
      never do all threads wait. *)
  Theorem C51_ordered c t : nexec c -> (forall w, nl w = true) -> ordered c -> ~ overran c -> unfinished c t <> [] ->
    exists t', unfinished c t' <> [] /\ ~ nwaits E c t'.
  Proof.
    intros X Hn Od Ng Hc. destruct (nwaits_dec E c t) as [Wt|]; [|eauto]. destruct (net_bound _ _ _ _ _ _ c X) as (n & Bd).
    assert (K : forall k t w id rest, n - w <= k -> unfinished c t = (w, id) :: rest -> nwaits E c t -> exists t', unfinished c t' <> [] /\ ~ nwaits E c t').
    { clear t Hc Wt. induction k as [|k IH]; intros t w id rest Lk Cl Wt.
      { exfalso. assert (w < n) by (apply (Bd t w id); rewrite Cl; now left). lia. }
      destruct Wt as (w' & id' & rest' & Cl' & S). rewrite Cl in Cl'. injection Cl' as <- <- <-.
      pose proof (net_vector _ _ _ _ _ _ c w X) as Xw. pose proof (net_wired _ _ _ _ _ _ c X) as W. destruct (nest_of _ _ _ _ _ _ _ Xw) as [Ri _].
      destruct (waits_frame _ _ _ _ _ _ _ _ Xw S) as (fr & s & St & Q). destruct (top_id _ _ _ _ _ _ _ W Cl St) as [Hf Hs].
      pose proof (Od t) as Ot. rewrite Cl in Ot. rewrite (sorted_own _ _ _ Ot) in Hs. apply map_eq_nil in Hs. subst s.
      assert (Next : forall t' d' fr', frame_at (stack t' (rrun (vecs c w))) d' = Some fr' -> (t' = t -> d' < 0) -> lively (E w) (vecs c w) t' d' fr' ->
                       exists t', unfinished c t' <> [] /\ ~ nwaits E c t').
      { intros t' d' fr' F' Lt Lv. pose proof (frame_call _ _ _ _ _ _ _ _ _ _ _ X F') as I. destruct (unfinished c t') as [|[w2 id2] rest2] eqn:C2; [destruct I|].
        destruct (nwaits_dec E c t') as [W2|]; [|exists t'; split; [congruence|assumption]].
        destruct I as [I|I].
        - injection I as -> ->. exfalso. destruct W2 as (w3 & id3 & rest3 & C3 & S3). rewrite C2 in C3. injection C3 as <- <- <-.
          destruct (stack t' (rrun (vecs c w))) as [|fr2 s2] eqn:S2; [destruct d'; discriminate|]. destruct (top_id _ _ _ _ _ _ _ W C2 S2) as [Hf2 _].
          destruct (ids_differ _ t' d' fr' t' (length s2) fr2 Ri) as [_ Hd]; [rewrite S2; assumption|rewrite S2; apply top_frame|congruence|].
          assert (Sz : Datatypes.S d' = length (stack t' (rrun (vecs c w)))) by (rewrite S2, Hd; reflexivity).
          destruct (Lv Sz S3) as (o & Ho & Sw & Hsp). rewrite <- S2 in F'. pose proof (ri_ids _ Ri _ _ _ F') as Hi. rewrite Ho in Hi.
          pose proof (no_swap _ _ _ _ _ _ Xw (Hn w) Hi Sw). congruence.
        - pose proof (Od t') as O2. rewrite C2 in O2. inversion O2 as [|? ? _ Fa]. subst. rewrite Forall_forall in Fa. specialize (Fa _ I). simpl in Fa.
          assert (w2 < n) by (apply (Bd t' w2 id2); rewrite C2; now left). apply (IH t' w2 id2 rest2); [lia|assumption|assumption]. }
      destruct Q as [(i & t' & d' & fr' & _ & Lt & F' & _ & _ & Lv)|[(_ & b & _ & _ & [(t' & d' & fr' & Lt & F' & _ & _ & _ & Lv)|Ab])|(o1 & Ho & Ss & Hsp)]].
      - eapply Next; eauto.
      - eapply Next; eauto.
      - exfalso. destruct (C45_flat _ _ _ _ _ _ _ Xw) as (x & Xx & Hh & Hsh). apply Ng. exists w. rewrite <- Hh in Ab |- *.
        apply (beyond_over _ _ _ _ _ _ x _ Xx Ab). now rewrite Hsh.
      - exfalso. assert (F : frame_at (stack t (rrun (vecs c w))) 0 = Some fr) by (rewrite St; reflexivity). pose proof (ri_ids _ Ri _ _ _ F) as Hi. rewrite Ho in Hi.
        pose proof (no_swap _ _ _ _ _ _ Xw (Hn w) Hi (swap_self _ Ss)). congruence. }
    destruct Wt as (w & id & rest & Cl & S). apply (K n t w id rest); [lia|assumption|]. exists w, id, rest. auto.
  Qed.
  (** Moreover all calls can be brought to their ends, whatever the closures answer: there are steps, none of
      them a new call, after which no call is unfinished, or a growth call panicked without having made room. *)
  Theorem C51_ends c say : nexec c -> (forall w, nl w = true) -> ordered c -> ~ overran c ->
    exists c', nrun E say c c' /\ nexec c' /\ ((forall t, unfinished c' t = []) \/ overran c').
  Proof.
    intros X Hn Od Gp. destruct (net_threads _ _ _ _ _ _ c X) as (n & Th).
    remember (map (nleft c) (seq 0 n)) as l eqn:Hl. revert c X Od Gp Th Hl.
    induction (one_less_wf fewer fewer_wf l) as [l _ IH]. intros c X Od Gp Th Hl.
    destruct (existsb (fun t => match unfinished c t with [] => false | _ => true end) (seq 0 n)) eqn:Ex.
    2:{ exists c. split; [constructor|]. split; [assumption|]. left. intros t. destruct (le_lt_dec n t) as [L|L]; [auto|]. destruct (unfinished c t) eqn:Cl; [reflexivity|]. exfalso.
        assert (K : existsb (fun t => match unfinished c t with [] => false | _ => true end) (seq 0 n) = true) by (apply existsb_exists; exists t; split; [apply in_seq; lia|now rewrite Cl]).
        congruence. }
    apply existsb_exists in Ex as (t0 & _ & Ex).
    destruct (C51_ordered c t0 X Hn Od Gp) as (t & Hc & Nw); [intros Q; rewrite Q in Ex; discriminate|].
    destruct (unfinished c t) as [|[w id] rest] eqn:Cl; [contradiction|].
    assert (St : exists l c', (l = NLStep t /\ rstep (E w) (vecs c w) l <> RNext (vecs c w) \/ l = NLAns t (say c t)) /\ nstep E c w l = NNext c').
    { assert (Ns : rstep (E w) (vecs c w) (NLStep t) <> RNext (vecs c w)) by (intros S; apply Nw; exists w, id, rest; auto).
      assert (Nt : on_top c t w = true) by (unfold on_top; rewrite Cl; apply Nat.eqb_refl).
      destruct (call_frame _ _ _ _ _ _ c t w id X) as (d & fr0 & F & _); [rewrite Cl; now left|].
      destruct (stack t (rrun (vecs c w))) as [|fr s] eqn:Sk; [destruct d; discriminate|].
      destruct (rstep (E w) (vecs c w) (NLStep t)) as [r|f|] eqn:Sr.
      - exists (NLStep t). eexists. split; [left; split; [reflexivity|]|]; [congruence|]. unfold nstep. cbn [nmay]. rewrite Nt, Sr. reflexivity.
      - exfalso. apply (C51_no_fault c w (NLStep t) f X Logic.I). unfold nstep. cbn [nmay]. now rewrite Nt, Sr.
      - destruct fr as [i o p]. destruct p as [v|m|a k|a again k|k]; cbn [rstep] in Sr; rewrite Sk in Sr; cbn [f_prog] in Sr; try discriminate.
        + exfalso. destruct (exec _ _ _ _); discriminate.
        + exfalso. destruct (exec _ _ _ _) as [y s' l'|]; [destruct (again y); discriminate|discriminate].
        + exists (NLAns t (say c t)). eexists. split; [right; reflexivity|]. unfold nstep. cbn [nmay rstep]. rewrite Nt, Sk. reflexivity. }
    destruct St as (lb & c1 & Hlb & S).
    assert (X1 : nexec c1). { eapply nexecution_step; [exact X| |exact S]. destruct Hlb as [[-> _]| ->]; exact Logic.I. }
    assert (R1 : nrun E say c c1). { destruct Hlb as [[-> _]| ->]; [eapply nrun_step|eapply nrun_answer]; try exact S; constructor. }
    destruct (left_step E ro nl l0 c0 m0 c w t lb c1 rest id X) as (Ot & Fw & Cs); [destruct Hlb as [H|H]; [left; exact H|right; eauto]|exact S|exact Cl|].
    destruct (calm_step _ _ _ _ _ Gp S) as [G1|G1]; [exists c1; auto|].
    assert (Lt : t < n). { destruct (le_lt_dec n t) as [L|L]; [|assumption]. rewrite (Th t L) in Cl. discriminate. }
    destruct (IH (map (nleft c1) (seq 0 n))) with (c := c1) as (c2 & R2 & X2 & Q); [|exact X1| |exact G1| |reflexivity|].
    - rewrite Hl. destruct (in_split t (seq 0 n)) as (a & b & Hs); [apply in_seq; lia|]. pose proof (seq_NoDup n 0) as Nd. rewrite Hs in *. apply NoDup_remove_2 in Nd.
      rewrite !map_app. cbn [map]. rewrite (map_ext_in (nleft c1) (nleft c) a), (map_ext_in (nleft c1) (nleft c) b); [constructor; exact Fw| |];
        intros u Iu; apply Ot; intros ->; apply Nd, in_or_app; auto.
    - intros u. destruct (Nat.eq_dec u t) as [->|Nu]; [|rewrite (proj1 (Ot u Nu)); apply Od]. pose proof (Od t) as O. rewrite Cl in O.
      destruct Cs as [->| ->]; [assumption|]. now inversion O.
    - intros u L. rewrite (proj1 (Ot u ltac:(lia))). auto.
    - exists c2. split; [|auto]. clear - R1 R2. induction R2 as [|c3 w3 t3 c4 R IH' S3|c3 w3 t3 c4 R IH' S3]; [assumption|eapply nrun_step; eauto|eapply nrun_answer; eauto].
  Qed.
End Network.

Section Deadlock.
  Context {V : Type} (E : nat -> env V) (nl : nat -> bool) (l0 : nat -> list V) (c0 m0 : nat -> nat).
  Implicit Types (c : ncfg V).
  Notation ro := (fun _ : nat => false).
  Notation nexec := (nexecution E ro nl l0 c0 m0).

  Lemma lent_frame w (r : rcfg V) l r' j t d x t1 d1 fr k i : rexecution (E w) false (nl w) (l0 w) (c0 w) (m0 w) r ->
    frame_at (stack t1 (rrun r)) d1 = Some fr -> f_prog fr = RClo k -> lends (f_op fr) (length (values_read (rhist r) (f_id fr))) = Some i ->
    rstep (E w) r l = RNext r' -> rhist r' = rhist r ++ [NAcc j t d x] -> ~ on_elem i x.
  Proof.
    intros X F Fp Le S Hh On. destruct (simulation _ _ _ _ _ _ _ X) as [R Sm]. destruct (Sm _ (consistent_self _)) as (c & Xc & Si). destruct (nest_of _ _ _ _ _ _ _ X) as [_ N].
    pose proof (sm_run _ _ _ Si t1 d1) as M. rewrite F in M. destruct (lookup (agent t1 d1) (run c)) as [x1|] eqn:Lk; [|contradiction].
    destruct M as (_ & _ & A). rewrite Fp in A. apply agr_inv in A. pose proof (ne_clo _ N _ _ _ F) as C. rewrite Fp in C.
    destruct C as [C _]. specialize (C i Le). set (a := dropw _ _ 0) in A. specialize (C a). destruct (k a) as [| |b k'| |]; try contradiction.
    apply agr_inv in A as (k'' & A & _).
    assert (P : (exists k, c_prog x1 = Act (RdEnd i) k) \/ exists f k, c_prog x1 = Act (WrEnd i f) k) by (destruct b; try contradiction; simpl in C; subst; eauto).
    clear b k' k'' A C. destruct (execution_borrows (E w) (nl w) (l0 w) (c0 w) (m0 w) false c Xc) as (B & Br). destruct (execution_world _ _ _ _ _ _ c Xc) as (snap & g & W).
    assert (B1 : borrowed (agent t1 d1) i (sh c)).
    { apply (br_slot _ _ Br). pose proof (br_prog _ _ Br _ _ Lk) as K. destruct P as [(k2 & P)|(f & k2 & P)]; rewrite P in K; apply K. }
    destruct (rstep_move (E w) _ _ _ S) as [|t' o' U|t' fr' rest a' y s lg p St Ex Pr|t' id' o' k' rest a' St|t' fr' rest e' g' St Pr|s e' g' Q O']; cbn [rhist] in Hh.
    - apply (f_equal (@length _)) in Hh. rewrite app_length in Hh. simpl in Hh. lia.
    - apply app_inj_tail in Hh as [_ Hh]. discriminate.
    - unfold rafter in Hh. cbn [rhist] in Hh. apply app_inv_head in Hh. destruct lg as [|z lg]; [discriminate|]. injection Hh as <- <- <- -> _.
      pose proof (sm_run _ _ _ Si t' (length rest)) as M. rewrite St, top_frame in M. destruct (lookup (agent t' (length rest)) (run c)) as [x'|] eqn:Lk'; [|contradiction].
      destruct M as (_ & _ & A). pose proof (br_prog _ _ Br _ _ Lk') as K.
      assert (Bk : bok (B (agent t' (length rest))) a').
      { destruct Pr as [(k2 & Pr & _)|(ag & k2 & Pr & _)]; rewrite Pr in A; apply agr_inv in A as (k3 & A & _); rewrite A in K; apply K. }
      assert (B2 : borrowed (agent t' (length rest)) i (sh c)) by (apply (br_slot _ _ Br); eapply (value_acc (E w)); eauto; now left).
      destruct (agent_inj _ _ _ _ (borrow_unique _ _ _ _ _ _ _ _ _ _ W B1 B2)) as [-> ->]. rewrite St, top_frame in F. injection F as ->.
      destruct Pr as [(k2 & Pr & _)|(ag & k2 & Pr & _)]; congruence.
    - apply (f_equal (@length _)) in Hh. rewrite app_length in Hh. simpl in Hh. lia.
    - apply app_inj_tail in Hh as [_ Hh]. destruct Pr as [(z & -> & _)|(m & -> & _)]; discriminate.
    - apply app_inj_tail in Hh as [_ Hh]. subst e'. discriminate.
  Qed.

  (** Every call of the set [A] needs the value of an element that a call of the same vector lends to its closure, and
      this closure is itself inside a call of [A], maybe one of another vector: then none of these calls
      ever ends, whatever happens. *)
  Definition deadlocked c (A : nat -> nat -> Prop) : Prop :=
    forall w id, A w id -> exists t d o i id1 t1 d1 o1 w2 id2, ropen (rhist (vecs c w)) id t d o /\ uses o i /\
      (forall k t' d' x, nth_error (rhist (vecs c w)) k = Some (NAcc id t' d' x) -> ~ on_elem i x) /\
      ropen (rhist (vecs c w)) id1 t1 d1 o1 /\ lends o1 (length (values_read (rhist (vecs c w)) id1)) = Some i /\
      A w2 id2 /\ within c w2 id2 w id1.
  Lemma deadlocked_step c w0 l c' A : nexec c -> rclient (E w0) false (nl w0) (length (l0 w0)) (vecs c w0) l -> nstep E c w0 l = NNext c' -> deadlocked c A -> deadlocked c' A.
  Proof.
    intros X C S B. pose proof (nexecution_step _ _ _ _ _ _ _ _ _ _ X C S) as X'.
    destruct (nstep_inv _ _ _ _ _ S) as (M & r & Sr & Qc).
    (* the calls around do nothing *)
    assert (Sil : forall w id1 w2 id2, within c w2 id2 w id1 -> rhist (vecs c' w) = rhist (vecs c w) \/ exists e, rhist (vecs c' w) = rhist (vecs c w) ++ [e] /\ caller e <> Some id1).
    { intros w id1 w2 id2 (t & h & rest & Cl & I). destruct h as [|y h]; (eapply silent; [exact X|exact S|exact Cl|]); [assumption|]. apply in_or_app. right. now right. }
    assert (Sus : forall w id1 w2 id2 t1 d1 o1, within c w2 id2 w id1 -> ropen (rhist (vecs c w)) id1 t1 d1 o1 ->
                    exists fr k, frame_at (stack t1 (rrun (vecs c w))) d1 = Some fr /\ f_id fr = id1 /\ f_op fr = o1 /\ f_prog fr = RClo k).
    { intros w id1 w2 id2 t1 d1 o1 (t & h & rest & Cl & I) O. assert (Q : exists d fr k, frame_at (stack t (rrun (vecs c w))) d = Some fr /\ f_id fr = id1 /\ f_prog fr = RClo k).
      { destruct h as [|y h]; (eapply tail_suspended; [exact X|exact Cl|]); [assumption|]. apply in_or_app. right. now right. }
      destruct Q as (d & fr & k & F & Fi & Fp). destruct (nest_of _ _ _ _ _ _ _ (net_vector _ _ _ _ _ _ c w X)) as [Ri _].
      pose proof (ri_ids _ Ri _ _ _ F) as Hi. destruct O as [O _]. rewrite Fi, O in Hi. injection Hi as <- <- Ho. exists fr, k. auto. }
    (* the calls of the set do not reach the element *)
    assert (Acc : forall w id, A w id -> exists t d o i id1 t1 d1 o1 w2 id2, ropen (rhist (vecs c w)) id t d o /\ uses o i /\
      (forall k t' d' x, nth_error (rhist (vecs c' w)) k = Some (NAcc id t' d' x) -> ~ on_elem i x) /\
      ropen (rhist (vecs c w)) id1 t1 d1 o1 /\ lends o1 (length (values_read (rhist (vecs c w)) id1)) = Some i /\
      A w2 id2 /\ within c w2 id2 w id1).
    { intros w id Ha. destruct (B w id Ha) as (t & d & o & i & id1 & t1 & d1 & o1 & w2 & id2 & O & U & No & O1 & Le & A2 & Wi).
      exists t, d, o, i, id1, t1, d1, o1, w2, id2. split; [assumption|]. split; [assumption|]. split; [|auto 6]. intros k t' d' x Hk.
      destruct (Sil _ _ _ _ Wi) as [Hh|(e & Hh & _)]; rewrite Hh in Hk; [eauto|]. apply nth_new in Hk as [Hk|[_ <-]]; [eauto|].
      destruct (Nat.eq_dec w w0) as [->|Nw].
      2:{ exfalso. subst c'. cbn [vecs] in Hh. rewrite set_there in Hh by assumption. apply (f_equal (@length _)) in Hh. rewrite app_length in Hh. simpl in Hh. lia. }
      destruct (Sus _ _ _ _ _ _ _ Wi O1) as (fr & k' & F & Fi & Fo & Fp). subst c'. cbn [vecs] in Hh. rewrite set_here in Hh.
      eapply (lent_frame w0); [exact (net_vector _ _ _ _ _ _ c w0 X)|exact F|exact Fp|rewrite Fi, Fo; exact Le|exact Sr|exact Hh]. }
    (* so they do not end *)
    assert (Open : forall w id, A w id -> rdone (rhist (vecs c' w)) id = false).
    { intros w id Ha. destruct (Acc w id Ha) as (t & d & o & i & id1 & t1 & d1 & o1 & w2 & id2 & O & U & No & O1 & Le & A2 & Wi).
      destruct (rdone (rhist (vecs c' w)) id) eqn:D; [exfalso|reflexivity].
      assert (Hi : nth_error (rhist (vecs c' w)) id = Some (NInv id t d o)).
      { destruct (Sil _ _ _ _ Wi) as [Hh|(e & Hh & _)]; rewrite Hh; [apply O|]. apply nth_old, O. }
      apply existsb_exists in D as (e & Ie & Re). apply In_nth_error in Ie as (n & Hn).
      destruct (must_use (E w) (nl w) (l0 w) (c0 w) (m0 w) _ _ _ _ _ _ _ (net_vector _ _ _ _ _ _ c' w X') Hi Hn Re i U) as (k & t' & d' & x & _ & Hk & On).
      eapply No; eauto. }
    intros w id Ha. destruct (Acc w id Ha) as (t & d & o & i & id1 & t1 & d1 & o1 & w2 & id2 & O & U & No & O1 & Le & A2 & Wi).
    exists t, d, o, i, id1, t1, d1, o1, w2, id2. destruct (Sil _ _ _ _ Wi) as [Hh|(e & Hh & Ne)].
    - split; [split; [rewrite Hh; apply O|apply Open; assumption]|]. split; [assumption|]. split; [assumption|]. rewrite Hh. split; [assumption|]. split; [assumption|]. split; [assumption|].
      exact (within_step _ _ _ _ _ _ _ _ _ _ _ _ _ _ X S Wi (Open _ _ A2)).
    - split; [split; [rewrite Hh; apply nth_old, O|apply Open; assumption]|]. split; [assumption|]. split; [assumption|].
      split; [split; [rewrite Hh; apply nth_old, O1|]|].
      { rewrite Hh, rdone_snoc, (proj2 O1). destruct e; try reflexivity; simpl in *; destruct (Nat.eqb_spec id0 id1); congruence. }
      split; [|split; [assumption|exact (within_step _ _ _ _ _ _ _ _ _ _ _ _ _ _ X S Wi (Open _ _ A2))]].
      rewrite Hh, values_app. replace (values_read [e] id1) with (@nil V); [rewrite app_nil_r; assumption|]. symmetry. apply values_fresh. intros e' [<-|[]]. assumption.
  Qed.
  Theorem C51_deadlock c A c' w id : nexec c -> deadlocked c A -> nreach E ro nl l0 c c' -> A w id -> rdone (rhist (vecs c' w)) id = false.
  Proof.
    intros X B R Ha. assert (K : deadlocked c' A).
    { induction R as [|c1 w1 l c2 R IH C S]; [assumption|]. exact (deadlocked_step c1 w1 l c2 A (nexecution_trans _ _ _ _ _ _ _ _ X R) C S IH). }
    destruct (K w id Ha) as (t & d & o & i & id1 & t1 & d1 & o1 & w2 & id2 & (_ & D) & _). exact D.
  Qed.
End Deadlock.

(** ** Examples: vectors like those of [Examples.v], number 0 is [a] and number 1 is [b] *)
Notation nex := (fun _ : nat => ex).
Notation n56 := (fun _ : nat => [5; 6]).
Notation never := (fun _ : nat => false).
Notation always := (fun _ : nat => true).
Notation nexec := (nexecution nex never always n56 (fun _ => 2) (fun _ => 8)).

(** [NOn w l]: step [l] on vector [w]; [NFin t]: the innermost call of thread [t] goes on until user code runs. *)
Inductive nitem : Type := NOn (w : nat) (l : rlabel nat) | NFin (t : nat).
Definition nokb (c : ncfg nat) (w : nat) (l : rlabel nat) : bool :=
  rokb 2 (vecs c w) l && match l with NLInv _ o => negb (swaps (with_answers (fun _ => None) o)) | _ => true end.
Definition ngo (c : ncfg nat) (w : nat) (l : rlabel nat) : option (ncfg nat) :=
  if nokb c w l then match nstep nex c w l with NNext c' => Some c' | _ => None end else None.
Fixpoint nfinish (fuel : nat) (c : ncfg nat) (t : nat) : option (ncfg nat) :=
  if nturn c t then Some c else
  match fuel, unfinished c t with
  | S k, (w, _) :: _ =>
      match ngo c w (NLStep t) with
      | Some c' => if length (unfinished c' t) =? length (unfinished c t) then nfinish k c' t else Some c'
      | None => None
      end
  | _, _ => None
  end.
Fixpoint nplay (c : ncfg nat) (s : list nitem) : option (ncfg nat) :=
  match s with
  | [] => Some c
  | NOn w l :: s' => match ngo c w l with Some c' => nplay c' s' | None => None end
  | NFin t :: s' => match nfinish 100 c t with Some c' => nplay c' s' | None => None end
  end.
Definition nzero : ncfg nat := nstart n56 (fun _ => 2) (fun _ => 8).
Definition nfinal (s : list nitem) : ncfg nat := match nplay nzero s with Some c => c | None => nzero end.
Definition npossible (s : list nitem) : bool := match nplay nzero s with Some _ => true | None => false end.

Lemma ngo_exec c w l c' : nexec c -> ngo c w l = Some c' -> nexec c'.
Proof.
  unfold ngo. intros X H. destruct (nokb c w l) eqn:O; [|discriminate]. destruct (nstep nex c w l) as [d| |] eqn:S; try discriminate. injection H as <-.
  refine (nexecution_step _ _ _ _ _ _ c w l d X _ S). unfold nokb in O. apply andb_true_iff in O as [O Sw]. destruct l as [t o|t|t a| |k]; try exact Logic.I.
  - cbn [rokb] in O. cbn [rclient]. cbv zeta in *. rewrite !andb_true_iff, Nat.ltb_lt in O. destruct O as ((O1 & O2) & O3). apply negb_true_iff in O1, O2, Sw.
    split; [|assumption]. split; [|split; [assumption|split; [assumption|intros _ Q; congruence]]].
    unfold ranges_ok, range_ok. destruct (with_answers (fun _ => None) o); auto. destruct o0; auto.
  - cbn [rokb] in O. intros (h1 & id & t & m & h2 & o & Hh & _). rewrite Hh, existsb_app in O. simpl in O. rewrite orb_true_r in O. discriminate.
Qed.
Lemma nfinish_exec t fuel : forall c c', nexec c -> nfinish fuel c t = Some c' -> nexec c'.
Proof.
  induction fuel as [|k IH]; intros c c' X H; cbn [nfinish] in H; destruct (nturn _ _) in H; try discriminate; try (injection H as <-; assumption).
  destruct (unfinished c t) as [|[w id] rest] eqn:U; [discriminate|]. destruct (ngo c w (NLStep t)) as [d|] eqn:G; [|discriminate]. pose proof (ngo_exec _ _ _ _ X G).
  destruct (_ =? _) in H; [eapply IH; eauto|injection H as <-; assumption].
Qed.
Lemma nplay_exec s : forall c c', nexec c -> nplay c s = Some c' -> nexec c'.
Proof.
  induction s as [|[w l|t] s IH]; intros c c' X; cbn [nplay]; [now intros [= <-]| |].
  - destruct (ngo c w l) as [d|] eqn:G; [|discriminate]. apply IH. eapply ngo_exec; eauto.
  - destruct (nfinish 100 c t) as [d|] eqn:G; [|discriminate]. apply IH. eapply nfinish_exec; eauto.
Qed.
Lemma nex_final s : npossible s = true -> nexec (nfinal s).
Proof.
  unfold npossible, nfinal. destruct (nplay nzero s) eqn:Hg; [|discriminate]. intros _. refine (nplay_exec s nzero _ _ Hg).
  split; [|apply nreach_start]. intros _. split; [exact ex_ok|]. split; [exact ex_cap|]. split; [apply Nat.leb_le; reflexivity|]. apply Nat.ltb_lt. vm_compute. reflexivity.
Qed.
Definition nwaitsb (c : ncfg nat) (t : nat) : bool :=
  match unfinished c t with
  | (w, _) :: _ =>
      match stack t (rrun (vecs c w)) with
      | fr :: rest => match f_prog fr with
                      | RSpin a again _ => match exec ex (agent t (length rest)) a (rsh (vecs c w)) with Done y _ _ => again y | Bad _ => false end
                      | _ => false
                      end
      | [] => false
      end
  | [] => false
  end.
Lemma nwaitsb_spec c t : nwaitsb c t = true -> nwaits nex c t.
Proof.
  unfold nwaitsb, nwaits. destruct (unfinished c t) as [|[w id] rest]; [discriminate|]. intros H. exists w, id, rest. split; [reflexivity|].
  cbv beta iota zeta delta [rstep]. destruct (stack t (rrun (vecs c w))) as [|fr s]; [discriminate|]. destruct (f_prog fr); try discriminate.
  destruct (exec _ _ _ _); [|discriminate]. now rewrite H.
Qed.
Lemma nwaitsb_turn c t : nturn c t = true -> ~ nwaits nex c t.
Proof.
  intros T (w & id & rest & Cl & S). unfold nturn in T. rewrite Cl in T. destruct (rstay_inv _ _ _ S) as (fr & s & a & ag & k & y & s' & l & St & P & _).
  rewrite St in T. cbn [user_turn] in T. rewrite P in T. discriminate.
Qed.

Definition ncalled (w t : nat) (o : rop nat) : list nitem := [NOn w (NLInv t o); NFin t].
Definition nanswer (w t : nat) (a : option (ans nat)) : list nitem := [NOn w (NLAns t a); NFin t].
(** Thread 0 takes a reference to the first element of each vector. *)
Definition firsts : list nitem := ncalled 0 0 (RPlain (OGet 0)) ++ ncalled 1 0 (RPlain (OGet 0)).

(** [a[0].map(|x| { b.push(x); b[0].update(|y| { a.len(); *y = 9 }); x + 1 })] *)
Definition mixed : list nitem :=
  firsts ++ ncalled 0 0 (RElemMap 0) ++ ncalled 1 0 (RPlain (OPush 5)) ++ ncalled 1 0 (RElemUpdate 0) ++ ncalled 0 0 (RPlain OLen) ++
  nanswer 1 0 (Some (AWrite 9 true)) ++ nanswer 0 0 (Some (AVal 6)).
Lemma mixed_run : nexec (nfinal mixed).
Proof. apply nex_final. vm_compute. reflexivity. Qed.
Example C51_vectors_example : nexec (nfinal mixed) /\
  skipn 5 (rhist (vecs (nfinal mixed) 0)) =
    [NInv 5 0 0 (RElemMap 0);
       NInv 6 0 1 (RPlain OLen); NAcc 6 0 1 (AcCap 2); NAcc 6 0 1 (AcResv 2); NRet 6 0 1 (RNat 2);
     NAcc 5 0 0 (AcRead 0 5); NRet 5 0 0 (RVal 6)] /\
  skipn 5 (rhist (vecs (nfinal mixed) 1)) =
    [NInv 5 0 0 (RPlain (OPush 5)); NAcc 5 0 0 (AcAdd 2 1); NAcc 5 0 0 (AcCap 2); NAcc 5 0 0 (AcInit 2 5); NRet 5 0 0 (RNat 2);
     NInv 10 0 0 (RElemUpdate 0); NAcc 10 0 0 (AcWrite 0 5 9); NRet 10 0 0 RUnit].
Proof. split; [exact mixed_run|]. split; vm_compute; reflexivity. Qed.
Example C51_flat_example : nexec (nfinal mixed) /\
  map (value (replay (abs0 [5; 6] 8) (flatten (vecs (nfinal mixed) 1)))) [0; 1; 2; 3] = [Some 9; Some 6; Some 5; None].
Proof. split; [exact mixed_run|]. vm_compute. reflexivity. Qed.
Example C51_no_fault_example : nexec (nfinal mixed) /\ rclient ex false true 2 (vecs (nfinal mixed) 1) (NLInv 1 RMap).
Proof.
  split; [exact mixed_run|]. split; [split; [exact Logic.I|split; [reflexivity|split; [reflexivity|discriminate]]]|].
  apply Nat.ltb_lt. vm_compute. reflexivity.
Qed.
(** [a[0].map(|_| b[0].set(7))] and [b[0].map(|_| a[0].set(8))] in two threads. *)
Definition across : list nitem :=
  firsts ++ ncalled 0 0 (RElemMap 0) ++ ncalled 1 1 (RElemMap 0) ++
  [NOn 1 (NLInv 0 (RPlain (OElem 0 (ESet 7)))); NOn 1 (NLStep 0); NOn 0 (NLInv 1 (RPlain (OElem 0 (ESet 8)))); NOn 0 (NLStep 1)].
Lemma across_run : nexec (nfinal across).
Proof. apply nex_final. vm_compute. reflexivity. Qed.
Lemma across_calls : unfinished (nfinal across) 0 = [(1, 6); (0, 5)] /\ unfinished (nfinal across) 1 = [(0, 6); (1, 5)] /\ (forall t, 2 <= t -> unfinished (nfinal across) t = []).
Proof. split; [vm_compute; reflexivity|]. split; [vm_compute; reflexivity|]. intros [|[|t]] L; [lia|lia|]. vm_compute. reflexivity. Qed.
Example C51_calls_example : nexec (nfinal across) /\ In (0, 5) (unfinished (nfinal across) 0) /\ ropen (rhist (vecs (nfinal across) 0)) 5 0 0 (RElemMap 0).
Proof. split; [exact across_run|]. split; [rewrite (proj1 across_calls); right; now left|]. split; vm_compute; reflexivity. Qed.
Example C51_nesting_example : nexec (nfinal across) /\ within (nfinal across) 1 6 0 5 /\ exists c', nstep nex (nfinal across) 1 (NLStep 0) = NNext c'.
Proof.
  split; [exact across_run|]. split; [exists 0, [], [(0, 5)]; split; [apply across_calls|now left]|].
  assert (H : match nstep nex (nfinal across) 1 (NLStep 0) with NNext _ => true | _ => false end = true) by (vm_compute; reflexivity).
  destruct (nstep nex (nfinal across) 1 (NLStep 0)) as [c'| |]; try discriminate. exists c'. reflexivity.
Qed.
Example C51_waits_example : nexec (nfinal across) /\ nwaits nex (nfinal across) 0 /\ nwaits nex (nfinal across) 1.
Proof. split; [exact across_run|]. split; apply nwaitsb_spec; vm_compute; reflexivity. Qed.
Definition inners (w id : nat) : Prop := w <= 1 /\ id = 6.
Example C51_deadlock_example : nexec (nfinal across) /\ deadlocked (nfinal across) inners /\ inners 0 6.
Proof.
  split; [exact across_run|]. split; [|split; [lia|reflexivity]].
  assert (No : forall w, w <= 1 -> forall k t d x, nth_error (rhist (vecs (nfinal across) w)) k <> Some (NAcc 6 t d x)).
  { intros w Lw k t d x H. apply nth_error_In in H. assert (K : existsb (fun e => match e with NAcc 6 _ _ _ => true | _ => false end) (rhist (vecs (nfinal across) w)) = true).
    { apply existsb_exists. exists (NAcc 6 t d x). split; [assumption|]. reflexivity. }
    revert K. destruct w as [|[|w]]; [vm_compute; discriminate|vm_compute; discriminate|lia]. }
  intros w id [Lw ->]. destruct w as [|[|w]]; [| |lia].
  - exists 1, 0, (RPlain (OElem 0 (ESet 8))), 0, 5, 0, 0, (RElemMap 0), 1, 6. split; [split; vm_compute; reflexivity|]. split; [reflexivity|].
    split; [intros k t d x H _; exact (No 0 (le_S _ _ (le_n 0)) k t d x H)|]. split; [split; vm_compute; reflexivity|]. split; [vm_compute; reflexivity|]. split; [split; [lia|reflexivity]|].
    exists 0, [], [(0, 5)]. split; [apply across_calls|now left].
  - exists 0, 0, (RPlain (OElem 0 (ESet 7))), 0, 5, 1, 0, (RElemMap 0), 0, 6. split; [split; vm_compute; reflexivity|]. split; [reflexivity|].
    split; [intros k t d x H _; exact (No 1 (le_n 1) k t d x H)|]. split; [split; vm_compute; reflexivity|]. split; [vm_compute; reflexivity|]. split; [split; [lia|reflexivity]|].
    exists 1, [], [(1, 5)]. split; [apply across_calls|now left].
Qed.
(** Without the order: no call of [swap], no panic, no closure uses the vector it is called by, and yet no call ever ends. *)
Theorem C51_cross_refuted : exists c, nexec c /\ (forall w t d id m, ~ In (NPan id t d m) (rhist (vecs c w))) /\ unfinished c 0 <> [] /\
  (forall t, unfinished c t <> [] -> nwaits nex c t) /\
  (forall w2 id2 w1 id1, within c w2 id2 w1 id1 -> w1 <> w2) /\
  forall c', nreach nex never always n56 c c' -> rdone (rhist (vecs c' 1)) 6 = false /\ rdone (rhist (vecs c' 0)) 6 = false.
Proof.
  exists (nfinal across). split; [exact across_run|]. destruct across_calls as (C0 & C1 & C2). destruct C51_waits_example as (_ & W0 & W1). destruct C51_deadlock_example as (_ & D & _).
  split; [|split; [|split; [|split]]].
  - assert (Np : forall w, existsb (fun e => match e with NPan _ _ _ _ => true | _ => false end) (rhist (vecs (nfinal across) w)) = false) by (intros [|[|w]]; vm_compute; reflexivity).
    intros w t d id m Q. specialize (Np w). generalize dependent (rhist (vecs (nfinal across) w)). intros h Np Q.
    assert (K : existsb (fun e => match e with NPan _ _ _ _ => true | _ => false end) h = true) by (apply existsb_exists; eexists; split; [exact Q|reflexivity]). congruence.
  - rewrite C0. discriminate.
  - intros [|[|t]] H; [exact W0|exact W1|]. exfalso. apply H. apply C2. lia.
  - intros w2 id2 w1 id1 (t & h & rest & Cl & I) ->. destruct t as [|[|t]]; [rewrite C0 in Cl|rewrite C1 in Cl|rewrite C2 in Cl by lia; destruct h; discriminate].
    + destruct h as [|x [|y h]]; [injection Cl as <- _ <-|injection Cl as _ <- _ <-|injection Cl as _ _ Cl; destruct h; discriminate]; [|destruct I]. destruct I as [I|[]]. discriminate.
    + destruct h as [|x [|y h]]; [injection Cl as <- _ <-|injection Cl as _ <- _ <-|injection Cl as _ _ Cl; destruct h; discriminate]; [|destruct I]. destruct I as [I|[]]. discriminate.
  - intros c' R. split; (eapply C51_deadlock; [exact across_run|exact D|exact R|]); split; try reflexivity; lia.
Qed.

(** [a[0].map(|_| b[0].set(7))] in thread 0, while the closure of [b[0].map(..)] runs in thread 1. *)
Definition upward : list nitem :=
  firsts ++ ncalled 0 0 (RElemMap 0) ++ ncalled 1 1 (RElemMap 0) ++ [NOn 1 (NLInv 0 (RPlain (OElem 0 (ESet 7)))); NOn 1 (NLStep 0)].
Example C51_ordered_example : nexec (nfinal upward) /\ ordered (nfinal upward) /\ ~ overran (nfinal upward) /\
  nwaits nex (nfinal upward) 0 /\ ~ nwaits nex (nfinal upward) 1 /\ unfinished (nfinal upward) 1 <> [].
Proof.
  split; [apply nex_final; vm_compute; reflexivity|]. split; [|split; [|split; [|split]]].
  - assert (C0 : unfinished (nfinal upward) 0 = [(1, 6); (0, 5)]) by (vm_compute; reflexivity). assert (C1 : unfinished (nfinal upward) 1 = [(1, 5)]) by (vm_compute; reflexivity).
    assert (C2 : forall t, unfinished (nfinal upward) (S (S t)) = []) by (intros t; vm_compute; reflexivity).
    intros [|[|t]]; [rewrite C0|rewrite C1|rewrite C2]; repeat constructor.
  - assert (Np : forall w, existsb is_pan (flatten (vecs (nfinal upward) w)) = false) by (intros [|[|w]]; vm_compute; reflexivity).
    intros (w & Q). exact (no_over _ (Np w) Q).
  - apply nwaitsb_spec. vm_compute. reflexivity.
  - apply nwaitsb_turn. vm_compute. reflexivity.
  - assert (C1 : unfinished (nfinal upward) 1 = [(1, 5)]) by (vm_compute; reflexivity). rewrite C1. discriminate.
Qed.

(** ... and how the calls can end, if the closures answer 1. *)
Lemma ngo_run say c0 c w l c' : nrun nex say c0 c -> match l with NLStep _ => True | NLAns t a => a = say c t | _ => False end -> ngo c w l = Some c' -> nrun nex say c0 c'.
Proof.
  unfold ngo. intros R K H. destruct (nokb c w l); [|discriminate]. destruct (nstep nex c w l) as [d| |] eqn:S; try discriminate. injection H as <-.
  destruct l as [|t|t a| |]; try contradiction; [eapply nrun_step; eauto|]. subst a. eapply nrun_answer; eauto.
Qed.
Lemma nfinish_run say c0 t fuel : forall c c', nrun nex say c0 c -> nfinish fuel c t = Some c' -> nrun nex say c0 c'.
Proof.
  induction fuel as [|k IH]; intros c c' R H; cbn [nfinish] in H; destruct (nturn _ _) in H; try discriminate; try (injection H as <-; assumption).
  destruct (unfinished c t) as [|[w id] rest] eqn:U; [discriminate|]. destruct (ngo c w (NLStep t)) as [d|] eqn:G; [|discriminate].
  pose proof (ngo_run say c0 c w (NLStep t) d R Logic.I G). destruct (_ =? _) in H; [eapply IH; eauto|injection H as <-; assumption].
Qed.
Definition ones : ncfg nat -> nat -> option (ans nat) := fun _ _ => Some (AVal 1).
Lemma nplay_run c0 s : forall c c', nrun nex ones c0 c ->
  forallb (fun x => match x with NOn _ (NLStep _) | NOn _ (NLAns _ (Some (AVal 1))) | NFin _ => true | _ => false end) s = true -> nplay c s = Some c' -> nrun nex ones c0 c'.
Proof.
  induction s as [|x s IH]; intros c c' R K; cbn [nplay]; [now intros [= <-]|]. cbn [forallb] in K. apply andb_true_iff in K as [K1 K]. destruct x as [w l|t].
  - destruct (ngo c w l) as [d|] eqn:G; [|discriminate]. apply IH; [|assumption]. apply (ngo_run ones c0 c w l d R); [|assumption].
    destruct l as [|u|u a| |]; try discriminate; [exact Logic.I|]. destruct a as [[x| | | |]|]; try discriminate. destruct x as [|[|x]]; try discriminate. reflexivity.
  - destruct (nfinish 100 c t) as [d|] eqn:G; [|discriminate]. apply IH; [|assumption]. eapply nfinish_run; eauto.
Qed.
Example C51_ends_example : nexec (nfinal upward) /\ ordered (nfinal upward) /\ ~ overran (nfinal upward) /\
  unfinished (nfinal upward) 0 = [(1, 6); (0, 5)] /\ unfinished (nfinal upward) 1 = [(1, 5)] /\
  exists c', nrun nex ones (nfinal upward) c' /\ (forall t, unfinished c' t = []) /\ ~ overran c'.
Proof.
  split; [apply C51_ordered_example|]. split; [apply C51_ordered_example|]. split; [|split; [vm_compute; reflexivity|split; [vm_compute; reflexivity|]]].
  - apply C51_ordered_example.
  - set (s := [NOn 1 (NLAns 1 (Some (AVal 1))); NFin 1; NFin 0; NOn 0 (NLAns 0 (Some (AVal 1))); NFin 0]).
    assert (Q : exists c', nplay (nfinal upward) s = Some c' /\ (forall t, unfinished c' t = []) /\ forall w, existsb is_pan (flatten (vecs c' w)) = false).
    { eexists. split; [vm_compute; reflexivity|]. split; [intros [|[|t]]; vm_compute; reflexivity|]. intros [|[|w]]; vm_compute; reflexivity. }
    destruct Q as (c' & Hc & U & P). exists c'. split; [exact (nplay_run _ s _ _ (nrun_start _ _ _) eq_refl Hc)|]. split; [exact U|].
    intros (w & G). exact (no_over _ (P w) G).
Qed.

Print Assumptions C51_vectors.
Print Assumptions C51_flat.
Print Assumptions C51_no_fault.
Print Assumptions C51_nesting.
Print Assumptions C51_waits.
Print Assumptions C51_ordered.
Print Assumptions C51_deadlock.
Print Assumptions C51_cross_refuted.
Print Assumptions C51_ends.
Print Assumptions C51_calls.
