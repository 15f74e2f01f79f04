(** * C46: what the calls made inside closures wait for, and which positions they get. *)

From Coq Require Import List Arith Bool Lia.
From Verif.Model Require Import Prog Mem Deps State Elem Vec Excl Machine Reentrant.
From Verif Require Import Client Spec Nested.
From Verif.Logic Require Import Inv WP Post Specs Ops Sound Shape Clients Hist Locks Facts Trace Progress Gaps Borrows Reentry Nesting Inner.
From Verif.Properties Require Import Examples Reentrant.
Import ListNotations.

(** The next step of the innermost call of thread [t] is a round of a busy-wait. *)
Definition rwaits {V} (E : env V) (r : rcfg V) (t : nat) : Prop := rstep E r (NLStep t) = RNext r.

Section Inner.
  Context {V : Type} (E : env V) (ro nl : bool) (l0 : list V) (c0 m0 : nat).
  Implicit Types (r : rcfg V).
  Notation rexec := (rexecution E ro nl l0 c0 m0).

  (** A call that waits, waits (a) for an element that was lent to a closure it is inside of, or that a call of another
      thread uses: the innermost one, or one that lends it to its closure; or (b) for room at positions beyond the
      capacity while the first of these belongs to the innermost call of another thread, or to a [push_for_idx]
      whose closure is running, maybe the one it is inside of; or (c) that position was abandoned by a growth
      call that panicked; or (d) it is [swap(i,i)].  Nothing else is held while a closure runs: no element by
      [fill_with], no position by the [extend] methods. *)
  Theorem C46_waits r t : rexec r -> rwaits E r t -> exists id d o, ropen (rhist r) id t d o /\ innermost (rhist r) t d /\
    ((exists i, rtouches o i /\
        (has_lent (rhist r) id i \/
         exists id' t' d' o', t' <> t /\ ropen (rhist r) id' t' d' o' /\ rtouches o' i /\
           (innermost (rhist r) t' d' \/ lends o' (length (values_read (rhist r) id')) = Some i))) \/
     (rgrows o = true /\ exists b, took (rhist r) id b (asks o) /\ cap (rsh r) < b /\
        ((exists id' t' d' o', ropen (rhist r) id' t' d' o' /\ rgrows o' = true /\
            a_pos (replay (abs0 l0 m0) (flatten r)) (cap (rsh r)) = Reserved id' /\
            (t' <> t /\ innermost (rhist r) t' d' \/
             o' = RPushFor /\ took (rhist r) id' (cap (rsh r)) 1 /\ (t' = t -> inside (rhist r) id id' RPushFor))) \/
         a_pos (replay (abs0 l0 m0) (flatten r)) (cap (rsh r)) = Abandoned)) \/
     (exists o1, o = RPlain o1 /\ self_swap o1 = true /\ hspin E = true)).
  Proof. apply waits_on. Qed.

  Lemma flat_open w h id t d (o : rop V) : ropen h id t d o -> Spec.open (map (flat_event w) h) id (agent t d) (with_answers (w id) o).
  Proof.
    intros [I D]. split; [rewrite flat_nth, I; reflexivity|]. clear I. unfold rdone in D.
    induction h as [|e h IH]; [reflexivity|]. simpl in *. apply orb_false_elim in D as [O1 O2]. rewrite (IH O2). destruct e; simpl in *; rewrite ?O1; reflexivity.
  Qed.

  (** The positions of a growth call are reserved before its closure runs, so the growth calls its closure makes get
      later ones. *)
  Theorem C46_position r id1 id2 o1 : rexec r -> inside (rhist r) id2 id1 o1 -> rgrows o1 = true ->
    exists b1, took (firstn id2 (rhist r)) id1 b1 (asks o1) /\ forall b2 n2, took (rhist r) id2 b2 n2 -> b1 + asks o1 <= b2.
  Proof.
    intros X Ins G. pose proof Ins as (t & d & d2 & o2 & Ld & O1 & I2).
    destruct (prefix_reach _ _ _ _ _ _ _ _ _ X I2) as (r1 & l & r2 & X1 & C & S & H1 & H2 & R). pose proof (rexecution_step _ _ _ _ _ _ _ _ _ X1 C S) as X2.
    destruct (nest_of _ _ _ _ _ _ _ X1) as [_ N1]. assert (L2 : id2 < length (rhist r)) by (apply nth_error_Some; congruence).
    assert (Hl : length (rhist r1) = id2) by (rewrite H1, firstn_length; lia).
    assert (F1 : firstn id2 (rhist r2) = firstn id2 (rhist r)) by (rewrite H2, <- H1, firstn_app, Hl, Nat.sub_diag; simpl; rewrite app_nil_r, <- Hl; apply firstn_all).
    assert (Ins2 : inside (rhist r2) id2 id1 o1).
    { exists t, d, d2, o2. rewrite F1. split; [assumption|]. split; [assumption|]. rewrite H2, nth_error_app2, Hl, Nat.sub_diag by lia. reflexivity. }
    assert (D2 : rdone (rhist r2) id2 = false) by (rewrite H2, rdone_snoc, <- Hl, (ne_fresh _ N1); reflexivity).
    destruct (both_open _ _ _ _ _ _ _ _ _ _ X2 Ins2 D2 (outer_open _ _ _ _ _ _ _ _ _ _ X2 Ins2 D2)) as (t' & d' & fr & k & F & Fi & Fo & Fp & _).
    pose proof (phases _ _ _ _ _ _ _ _ _ _ X2 F) as Ph. rewrite Fi, Fo, Fp, H2, raccs_snoc, H1 in Ph by discriminate.
    assert (T : exists b1, took (firstn id2 (rhist r)) id1 b1 (asks o1)).
    { destruct o1; try discriminate G; cbn [phase] in Ph; try contradiction.
      1:{ destruct Ph as [[Ph _]|[(b & k' & Ht & _)|[]]]; [discriminate|]. exists b. apply took_accs. rewrite Ht. now left. }
      all: destruct Ph as [Ph|(b & kc & I & _)]; [discriminate|exists b; now apply took_accs]. }
    destruct T as (b1 & T). exists b1. split; [assumption|]. intros b2 n2 (t2 & d3 & T2).
    destruct (C45_flat _ _ _ _ _ _ _ X) as (c & Xc & Hh & _). destruct (execution_expl _ _ _ _ _ _ _ Xc) as (snap & Ex & _). rewrite Hh in Ex. unfold flatten in Ex.
    set (w := answered (answers r)) in *. set (hf := map (flat_event w) (rhist r)) in *.
    apply In_nth_error in T2 as (k2 & T2). assert (E2 : nth_error hf k2 = Some (EAcc id2 (agent t2 d3) (AcAdd b2 n2))) by (unfold hf; rewrite flat_nth, T2; reflexivity).
    destruct T as (t1 & d1 & T). apply In_nth_error in T as (k1 & T). apply firstn_old in T as [Lk1 T].
    assert (E1 : nth_error hf k1 = Some (EAcc id1 (agent t1 d1) (AcAdd b1 (asks o1)))) by (unfold hf; rewrite flat_nth, T; reflexivity).
    destruct (h_acc _ _ _ _ _ _ _ Ex _ _ _ _ E2) as (p2 & A2 & _ & Ep2 & _). destruct (h_acc _ _ _ _ _ _ _ Ex _ _ _ _ E1) as (p1 & A1 & _ & Ep1 & _).
    assert (Of : Spec.open (firstn id2 hf) id1 (agent t d) (with_answers (w id1) o1)) by (unfold hf; rewrite firstn_map; now apply flat_open).
    destruct (h_open _ _ _ _ _ _ _ Ex id2 _ _ _ ltac:(unfold hf; rewrite map_length; lia) Of) as (_ & _ & Ep & _).
    refine (h_add_order _ _ _ _ _ _ _ Ex _ _ _ _ _ _ _ _ _ _ E1 E2 _ _); [congruence|lia].
  Qed.

  (** While the closure of a [push_for_idx] runs, whose position is the first one beyond the capacity, the capacity
      does not change ... *)
  Lemma push_for_cap r l r' id1 id2 : rexec r -> rclient E ro nl (length l0) r l -> rstep E r l = RNext r' -> inside (rhist r) id2 id1 RPushFor ->
    rdone (rhist r) id2 = false -> took (rhist r) id1 (cap (rsh r)) 1 -> cap (rsh r') = cap (rsh r).
  Proof.
    intros X C S Ins D2 T. pose proof (rexecution_step _ _ _ _ _ _ _ _ _ X C S) as X'.
    destruct (both_open _ _ _ _ _ _ _ _ _ _ X Ins D2 (outer_open _ _ _ _ _ _ _ _ _ _ X Ins D2)) as (t & d & fr & k & F & Fi & Fo & Fp & I1 & Ls).
    destruct (simulation _ _ _ _ _ _ _ X) as [R Sm]. destruct (log_grows _ _ _ _ S) as (x & A).
    pose proof (consistent_self (answers r')) as Cw. set (w := answered (answers r')) in *. assert (Cr : consistent w (answers r)) by (rewrite A in Cw; now apply consistent_app in Cw).
    destruct (Sm w Cr) as (c & Xc & Si). pose proof (sim_step _ _ _ _ _ _ R Si Cw S) as St.
    destruct (flat_label w r l) as [l'|] eqn:Fl; [|rewrite <- (sm_sh _ _ _ Si), <- (sm_sh _ _ _ St); reflexivity].
    destruct St as (c' & Sc & Si'). rewrite <- (sm_sh _ _ _ Si), <- (sm_sh _ _ _ Si').
    destruct (execution_world _ _ _ _ _ _ c Xc) as (snap & g & W). destruct (step_cap _ _ _ _ _ _ _ _ _ _ W Sc) as [?|(u & -> & Pe)]; [assumption|exfalso].
    destruct (flat_frame _ _ _ _ _ _ Si F) as (z & Lz & M1 & _). pose proof (w_gi _ _ _ _ _ _ _ _ W) as G.
    assert (Rs : a_pos (replay (abs0 l0 m0) (hist c)) (cap (sh c)) = Reserved id1).
    { rewrite (sm_sh _ _ _ Si). destruct T as (t1 & d1 & T). apply In_nth_error in T as (j & T).
      assert (Ej : nth_error (hist c) j = Some (EAcc id1 (agent t1 d1) (AcAdd (cap (rsh r)) 1))) by (rewrite (sm_hist _ _ _ Si), flat_nth, T; reflexivity).
      destruct (gi_run _ _ _ _ _ _ _ _ G _ _ Lz) as [O _]. rewrite M1, Fi in O. pose proof (gi_expl _ _ _ _ _ _ _ _ G) as Ex.
      destruct (h_acc _ _ _ _ _ _ _ Ex _ _ _ _ Ej) as (o' & _ & _ & Ep & _). rewrite <- (firstn_all (hist c)) in O.
      destruct (h_open _ _ _ _ _ _ _ Ex (length (hist c)) _ _ _ (le_n _) O) as (_ & _ & Ep' & Ne).
      pose proof (phases _ _ _ _ _ _ _ _ _ _ X F) as Ph. rewrite Fi, Fo, Fp in Ph. destruct Ph as [[Ph _]|[(b & k' & Ht & _)|[]]]; [discriminate|].
      rewrite <- (before_all (abs0 l0 m0) (hist c) (length (hist c))) by lia.
      apply (reserved_keep E ro nl l0 c0 m0 c Xc j id1 (agent t1 d1) (cap (rsh r)) 1); [assumption|lia|apply nth_error_Some; congruence|lia|congruence| |].
      - intros q e Lq He. apply (Ne q e); [lia|assumption].
      - intros v Hv. rewrite stored_eff, (sm_hist _ _ _ Si), raccs_flat, Ht in Hv. destruct Hv. }
    pose proof (gi_pos _ _ _ _ _ _ _ _ G (cap (sh c))) as P. unfold Sound.a0 in P. rewrite Rs, Pe in P. destruct P as (u' & z' & Lz' & Iz & Rb).
    destruct (same_call _ _ _ _ _ _ _ _ _ _ _ _ G Lz Lz') as [-> _]; [congruence|].
    destruct Rb as [Rb|[Rb|(v & Rb)]]; try discriminate. injection Rb as ->.
    destruct l as [u o'|u|u a| |n]; cbn [flat_label] in Fl; try discriminate. injection Fl as Fl. apply agent_inj in Fl as [-> Fl].
    destruct (stack t (rrun r)); simpl in Ls, Fl; lia.
  Qed.
  (** ... so the growth calls which that closure makes never return. *)
  Theorem C46_push_for r r' id1 id2 t d o2 : rexec r -> ropen (rhist r) id2 t d o2 -> inside (rhist r) id2 id1 RPushFor -> took (rhist r) id1 (cap (rsh r)) 1 ->
    rgrows o2 = true -> 0 < asks o2 -> rreach E (rclient E ro nl (length l0)) r r' -> forall t' d' v, ~ In (NRet id2 t' d' v) (rhist r').
  Proof.
    intros X O2 Ins T G2 A2 R.
    assert (K : (rdone (rhist r') id2 = false -> cap (rsh r') = cap (rsh r)) /\ forall t' d' v, ~ In (NRet id2 t' d' v) (rhist r')); [|apply K].
    induction R as [|r1 l r2 R IH C S].
    - split; [reflexivity|]. intros t' d' v I. destruct O2 as [_ O2]. unfold rdone in O2.
      assert (Q : existsb (is_rend id2) (rhist r) = true) by (apply existsb_exists; eexists; split; [exact I|]; simpl; apply Nat.eqb_refl). congruence.
    - destruct IH as [IH1 IH2]. destruct (rexecution_trans _ _ _ _ _ _ _ _ X R) as (X1 & (h1 & H1) & _). pose proof (rexecution_step _ _ _ _ _ _ _ _ _ X1 C S) as X2.
      assert (Tr : forall h2, took (rhist r ++ h2) id1 (cap (rsh r)) 1) by (intros h2; destruct T as (a & b & T); exists a, b; apply in_or_app; auto).
      assert (L2 : id2 < length (rhist r)) by (apply nth_error_Some; rewrite (proj1 O2); discriminate).
      assert (In2 : forall h2, inside (rhist r ++ h2) id2 id1 RPushFor).
      { intros h2. destruct Ins as (ta & da & db & ob & Ld & O & I). exists ta, da, db, ob. rewrite firstn_app. replace (id2 - length (rhist r)) with 0 by lia.
        simpl. rewrite app_nil_r. split; [assumption|]. split; [assumption|]. now apply nth_old. }
      destruct (rdone (rhist r1) id2) eqn:D1.
      + split.
        * intros D. destruct (hist_grows _ _ _ _ S) as [Hh|(e & Hh)]; rewrite Hh in D; [congruence|]. rewrite rdone_snoc, D1 in D. discriminate.
        * intros t' d' v I. destruct (hist_grows _ _ _ _ S) as [Hh|(e & Hh)]; rewrite Hh in I; [eapply IH2; eauto|].
          apply in_app_or in I as [I|[->|[]]]; [eapply IH2; eauto|]. exfalso.
          destruct (nest_of _ _ _ _ _ _ _ X1) as [_ N1].
          assert (I1 : nth_error (rhist r1) id2 = Some (NInv id2 t d o2)) by (rewrite H1; apply nth_old, O2).
          destruct (top_event _ _ _ _ _ _ _ _ _ _ _ _ _ _ X1 S Hh eq_refl I1) as (fr & rest & St & Fi & Lr).
          assert (F : frame_at (stack t (rrun r1)) (length rest) = Some fr) by (rewrite St; apply top_frame).
          pose proof (ne_open _ N1 _ _ _ F) as Q. rewrite Fi in Q. congruence.
      + specialize (IH1 eq_refl).
        assert (Cp : cap (rsh r2) = cap (rsh r)).
        { rewrite <- IH1. apply (push_for_cap r1 l r2 id1 id2 X1 C S); [rewrite H1; apply In2|assumption|rewrite H1, IH1; apply Tr]. }
        split; [intros _; assumption|]. intros t' d' v I. destruct (hist_grows _ _ _ _ S) as [Hh|(e & Hh)]; rewrite Hh in I; [eapply IH2; eauto|].
        apply in_app_or in I as [I|[->|[]]]; [eapply IH2; eauto|].
        destruct (C45_flat _ _ _ _ _ _ _ X2) as (c & Xc & Hc & Hs). destruct (execution_expl _ _ _ _ _ _ _ Xc) as (snap & Ex & _).
        assert (Er : nth_error (hist c) (length (rhist r1)) = Some (ERet id2 (agent t' d') v)).
        { rewrite Hc. unfold flatten. rewrite flat_nth, Hh, nth_error_app2, Nat.sub_diag by lia. reflexivity. }
        destruct (h_ret _ _ _ _ _ _ _ Ex _ _ _ _ Er) as (o & _ & Ei & _ & _ & P & _).
        assert (Ho : o = with_answers (answered (answers r2) id2) o2).
        { rewrite Hc in Ei. unfold flatten in Ei. rewrite flat_nth, Hh, H1, <- app_assoc, (nth_old _ _ _ _ (proj1 O2)) in Ei. simpl in Ei. congruence. }
        assert (Go : grows o = true) by (rewrite Ho, (same_grows _ _ (fun _ => None)); exact G2).
        destruct (post_grows E _ _ _ _ _ P Go) as (b2 & vs & -> & _).
        assert (Gw : grew (hist c) id2 (length (rhist r1)) b2 (request o)) by (exists o; split; [exists (agent t' d'); auto|auto]).
        assert (Aq : request o = asks o2) by (rewrite Ho, (same_request o2 _ (fun _ => None)); reflexivity).
        assert (Lb : cap (rsh r) < b2).
        { destruct (grew_facts _ _ _ _ _ _ _ Ex _ _ _ _ Gw) as (_ & u & j & _ & _ & _ & _ & _ & _ & _ & _ & Ej & _).
          rewrite Hc in Ej. unfold flatten in Ej. rewrite flat_nth in Ej. destruct (nth_error (rhist r2) j) as [ej|] eqn:Qj; [|discriminate]. destruct ej as [| | |ij tj dj aj| |]; try discriminate.
          injection Ej as -> _ ->. apply nth_error_In in Qj.
          assert (Ins2 : inside (rhist r2) id2 id1 RPushFor) by (rewrite Hh, H1, <- app_assoc; apply In2).
          destruct (C46_position r2 id1 id2 RPushFor X2 Ins2 eq_refl) as (b1 & T1 & Ps). specialize (Ps b2 (request o) ltac:(do 2 eexists; exact Qj)).
          assert (b1 = cap (rsh r)); [|subst; cbn in Ps; lia].
          assert (D2' : rdone (rhist r) id2 = false) by apply O2.
          destruct (both_open _ _ _ _ _ _ _ _ _ _ X Ins D2' (outer_open _ _ _ _ _ _ _ _ _ _ X Ins D2')) as (ta & da & fr & k & F & Fi & Fo & Fp & _).
          pose proof (phases _ _ _ _ _ _ _ _ _ _ X F) as Ph. rewrite Fi, Fo, Fp in Ph. destruct Ph as [[Ph _]|[(b & k' & Ht & _)|[]]]; [discriminate|].
          apply took_accs in T. rewrite Ht in T. destruct T as [T|[]]. injection T as T.
          assert (T1' : took (rhist r) id1 b1 (asks (RPushFor (V := V)))).
          { destruct T1 as (a & b' & T1). exists a, b'. rewrite Hh, H1, <- app_assoc, firstn_app in T1. replace (id2 - length (rhist r)) with 0 in T1 by lia.
            simpl in T1. rewrite app_nil_r in T1. apply In_nth_error in T1 as (q & T1). apply firstn_old in T1 as [_ T1]. eapply nth_error_In; eauto. }
          apply took_accs in T1'. rewrite Ht in T1'. destruct T1' as [T1'|[]]. injection T1' as T1'. congruence. }
        destruct (grew_has _ _ _ _ _ _ _ Ex _ _ _ _ b2 Gw) as (v & Hv); [lia|].
        destruct (simulation _ _ _ _ _ _ _ X1) as [_ Sm1]. destruct (log_grows _ _ _ _ S) as (xa & Ax).
        pose proof (consistent_self (answers r2)) as Cw. rewrite Ax in Cw at 2. apply consistent_app in Cw. destruct (Sm1 _ Cw) as (c1 & Xc1 & Si1).
        assert (Hb : before (abs0 l0 m0) (hist c) (length (rhist r1)) = replay (abs0 l0 m0) (hist c1)).
        { unfold before. rewrite Hc, (sm_hist _ _ _ Si1). unfold flatten. rewrite firstn_map, Hh, firstn_app, Nat.sub_diag, firstn_all. simpl. now rewrite app_nil_r. }
        rewrite Hb in Hv. destruct (execution_world _ _ _ _ _ _ c1 Xc1) as (snap1 & g1 & W1). pose proof (w_gi _ _ _ _ _ _ _ _ W1) as G1.
        pose proof (gi_pos _ _ _ _ _ _ _ _ G1 b2) as Pm. unfold Sound.a0 in Pm. rewrite Hv in Pm. pose proof (i_slot _ _ _ _ (gi_inv _ _ _ _ _ _ _ _ G1) b2) as Sl.
        rewrite (sm_sh _ _ _ Si1) in Sl. simpl in Pm.
        destruct (g1 b2) as [| | | | | |u [| |]]; try contradiction; destruct Sl as [Sl _]; lia.
  Qed.

  (** The rest of the history does not matter for what a call is inside of. *)
  Lemma inside_app h x id id' (o : rop V) : id < length h -> inside (h ++ x) id id' o -> inside h id id' o.
  Proof.
    intros L (t & d & d2 & o2 & Ld & O & I). exists t, d, d2, o2. rewrite firstn_app in O. replace (id - length h) with 0 in O by lia. simpl in O. rewrite app_nil_r in O.
    rewrite nth_error_app1 in I by assumption. auto.
  Qed.
  Lemma has_lent_app h x id i : id < length h -> has_lent (V := V) (h ++ x) id i -> has_lent h id i.
  Proof.
    intros L (id1 & o & I & Le). exists id1, o. split; [eapply inside_app; eauto|]. rewrite firstn_app in Le. replace (id - length h) with 0 in Le by lia. simpl in Le.
    rewrite app_nil_r in Le. exact Le.
  Qed.
  Lemma took_keep h id id' b n (t d : nat) lg : id <> id' -> took (h ++ map (NAcc (V := V) id t d) lg) id' b n -> took h id' b n.
  Proof.
    intros N (u & e & I). exists u, e. apply in_app_or in I as [I|I]; [assumption|]. apply in_map_iff in I as (x & Q & _). congruence.
  Qed.
  Definition ends_alone (p : rprog V (ret V)) : Prop := forall r t fr rest o, rexec r -> stack t (rrun r) = fr :: rest -> f_prog fr = p -> f_op fr = RPlain o ->
    (forall id' t' d' o', ropen (rhist r) id' t' d' o' -> t' = t) -> self_swap o && hspin E = false ->
    (forall i, touches o i -> ~ has_lent (rhist r) (f_id fr) i) ->
    (grows o = false \/ ~ overrun (flatten r) /\ forall id' b, inside (rhist r) (f_id fr) id' RPushFor -> took (rhist r) id' b 1 -> b < cap (rsh r)) ->
    exists n r', rpath E (rclient E ro nl (length l0)) r (repeat (NLStep t) n) r' /\ rdone (rhist r') (f_id fr) = true.
  Lemma ends_step (p : rprog V (ret V)) r t fr rest o a y s lg : ends_alone p -> rexec r -> stack t (rrun r) = fr :: rest -> f_op fr = RPlain o ->
    exec E (agent t (length rest)) a (rsh r) = Done y s lg -> rstep E r (NLStep t) = RNext (rafter t r fr rest p s lg) ->
    (forall id' t' d' o', ropen (rhist r) id' t' d' o' -> t' = t) -> self_swap o && hspin E = false ->
    (forall i, touches o i -> ~ has_lent (rhist r) (f_id fr) i) ->
    (grows o = false \/ ~ overrun (flatten r) /\ forall id' b, inside (rhist r) (f_id fr) id' RPushFor -> took (rhist r) id' b 1 -> b < cap (rsh r)) ->
    exists n r', rpath E (rclient E ro nl (length l0)) r (repeat (NLStep t) n) r' /\ rdone (rhist r') (f_id fr) = true.
  Proof.
    intros IH X St Ho Ex S On Ss Tl Gr. pose proof (rexecution_step _ _ _ _ _ _ _ _ _ X (I : rclient E ro nl (length l0) r (NLStep t)) S) as X'.
    assert (F : frame_at (stack t (rrun r)) (length rest) = Some fr) by (rewrite St; apply top_frame).
    destruct (frame_open _ _ _ _ _ _ _ _ _ _ X F) as [I1 D1]. assert (L1 : f_id fr < length (rhist r)) by (apply nth_error_Some; congruence).
    set (r1 := rafter t r fr rest p s lg) in *.
    destruct (IH r1 t (Frame (f_id fr) (f_op fr) p) rest o X') as (n & r' & Pa & D); cbn [f_id f_op f_prog]; try assumption; try reflexivity.
    - unfold r1, rafter. cbn [rrun]. rewrite stack_put, Nat.eqb_refl. reflexivity.
    - intros id' t' d' o' [A B]. unfold r1, rafter in A, B. cbn [rhist] in A, B. rewrite rdone_accs in B. apply inv_accs in A. exact (On _ _ _ _ (conj A B)).
    - intros i Ti Hl. apply (Tl i Ti). unfold r1, rafter in Hl. cbn [rhist] in Hl. eapply has_lent_app; eauto.
    - destruct Gr as [Gr|[Np Gp]]; [now left|right]. split.
      + intros Q. apply Np. revert Q. unfold flatten, r1, rafter. cbn [rhist answers]. rewrite map_app. apply over_app.
        intros e Ie. rewrite map_map in Ie. apply in_map_iff in Ie as (q & <- & _). exact I.
      + intros id' b Hi Ht. unfold r1, rafter in Hi, Ht |- *. cbn [rhist rsh] in *. apply inside_app in Hi; [|assumption].
        apply took_keep in Ht; [|intros <-; destruct Hi as (xa & xb & xc & xd & xe & [Q xf] & xg); apply firstn_old in Q as [Q _]; lia]. specialize (Gp _ _ Hi Ht).
        destruct (simulation _ _ _ _ _ _ _ X) as [_ Sm]. destruct (Sm _ (consistent_self _)) as (c & Xc & Si).
        destruct (execution_world _ _ _ _ _ _ c Xc) as (snap & g & W). pose proof (w_gi _ _ _ _ _ _ _ _ W) as G.
        pose proof (i_cap _ _ _ _ (gi_inv _ _ _ _ _ _ _ _ G)) as Ck. rewrite (sm_sh _ _ _ Si) in Ck.
        assert (Ce : cap (rsh r) <= cap s) by (eapply exec_cap_le; eauto; apply X). lia.
    - exists (Datatypes.S n), r'. split; [|assumption]. split; [exact I|]. exists r1. auto.
  Qed.
  Lemma inner_ends (p : rprog V (ret V)) : ends_alone p.
  Proof.
    induction p as [v|m|a k IH|a ag k IH|k IH]; intros r t fr rest o X St P Ho On Ss Tl Gr.
    - exists 1. eexists. split; [split; [exact I|]; eexists; split; [cbv beta iota zeta delta [rstep]; rewrite St, P; reflexivity|reflexivity]|].
      cbn [rhist]. rewrite rdone_snoc. simpl. rewrite Nat.eqb_refl. apply orb_true_r.
    - exists 1. eexists. split; [split; [exact I|]; eexists; split; [cbv beta iota zeta delta [rstep]; rewrite St, P; reflexivity|reflexivity]|].
      cbn [rhist]. rewrite rdone_snoc. simpl. rewrite Nat.eqb_refl. apply orb_true_r.
    - pose proof (C45_no_fault _ _ _ _ _ _ _ X (NLStep t)) as NF. destruct (exec E (agent t (length rest)) a (rsh r)) as [y s lg|f] eqn:Ex.
      2:{ exfalso. apply (NF f I). cbv beta iota zeta delta [rstep]. rewrite St, P, Ex. reflexivity. }
      eapply ends_step; eauto. cbv beta iota zeta delta [rstep]; rewrite St, P, Ex; reflexivity.
    - pose proof (C45_no_fault _ _ _ _ _ _ _ X (NLStep t)) as NF. destruct (exec E (agent t (length rest)) a (rsh r)) as [y s lg|f] eqn:Ex.
      2:{ exfalso. apply (NF f I). cbv beta iota zeta delta [rstep]. rewrite St, P, Ex. reflexivity. }
      destruct (ag y) eqn:Ag; [exfalso|eapply ends_step; eauto; cbv beta iota zeta delta [rstep]; rewrite St, P, Ex, Ag; reflexivity].
      assert (Wt : rwaits E r t) by (unfold rwaits; cbv beta iota zeta delta [rstep]; rewrite St, P, Ex, Ag; reflexivity).
      assert (F : frame_at (stack t (rrun r)) (length rest) = Some fr) by (rewrite St; apply top_frame).
      pose proof (frame_open _ _ _ _ _ _ _ _ _ _ X F) as O1.
      destruct (C46_waits r t X Wt) as (id & d & o' & O & Inn & Q).
      assert (Hid : id = f_id fr /\ o' = RPlain o).
      { pose proof (Inn _ _ _ O1) as Le. destruct (nest_of _ _ _ _ _ _ _ X) as [R N]. destruct (ne_frame _ N _ _ _ _ O) as (f2 & F2 & <- & <-).
        assert (d = length rest) as -> by (apply frame_len in F2; rewrite St in F2; simpl in F2; lia). rewrite F in F2. injection F2 as <-. auto. }
      destruct Hid as [-> ->].
      destruct Q as [(i & Ti & [Hl|(id' & t' & d' & o' & Nt & O' & _)])|[(Go & b & _ & _ & [(id' & t' & d' & o' & O' & _ & _ & Q)|Ab])|(o1 & Eo & Sw & Hs)]].
      + exact (Tl i Ti Hl).
      + exact (Nt (On _ _ _ _ O')).
      + destruct Gr as [Gr|[_ Gr]]; [unfold rgrows in Go; simpl in Go; congruence|]. specialize (On _ _ _ _ O').
        destruct Q as [[Nt _]|(_ & T & Hin)]; [auto|]. specialize (Gr _ _ (Hin On) T). lia.
      + destruct Gr as [Gr|[Gr _]]; [unfold rgrows in Go; simpl in Go; congruence|]. destruct (C45_flat _ _ _ _ _ _ _ X) as (c & Xc & Hc & Hsc).
        apply Gr. rewrite <- Hc in Ab |- *. apply (beyond_over E ro nl l0 c0 m0 c _ Xc Ab). now rewrite Hsc.
      + injection Eo as <-. rewrite Sw, Hs in Ss. discriminate.
    - exfalso. assert (F : frame_at (stack t (rrun r)) (length rest) = Some fr) by (rewrite St; apply top_frame).
      pose proof (plain_of _ _ _ _ _ _ _ X _ _ _ _ F Ho) as K. rewrite P in K. destruct K.
  Qed.

  (** A call made inside closures ends when its thread goes on and no other thread has calls, if it uses no element
      that was lent to one of these closures; a growth call, if besides no growth call has panicked since the last
      [clear] without having made room and there is room for the positions of the [push_for_idx] calls it is inside of. *)
  Theorem C46_ends r id t d o : rexec r -> ropen (rhist r) id t d (RPlain o) -> (forall id' t' d' o', ropen (rhist r) id' t' d' o' -> t' = t /\ d' <= d) ->
    self_swap o && hspin E = false -> (forall i, touches o i -> ~ has_lent (rhist r) id i) ->
    (grows o = false \/ ~ overrun (flatten r) /\ forall id' b, inside (rhist r) id id' RPushFor -> took (rhist r) id' b 1 -> b < cap (rsh r)) ->
    exists n r', rpath E (rclient E ro nl (length l0)) r (repeat (NLStep t) n) r' /\ rdone (rhist r') id = true.
  Proof.
    intros X O On Ss Tl Gr. destruct (nest_of _ _ _ _ _ _ _ X) as [R N]. destruct (ne_frame _ N _ _ _ _ O) as (fr & F & <- & Ho).
    destruct (stack t (rrun r)) as [|f2 rest] eqn:St; [destruct d; discriminate|].
    assert (F2 : frame_at (stack t (rrun r)) (length rest) = Some f2) by (rewrite St; apply top_frame).
    pose proof (frame_open _ _ _ _ _ _ _ _ _ _ X F2) as O2. destruct (On _ _ _ _ O2) as [_ Le].
    assert (d = length rest) as -> by (apply frame_len in F; simpl in F; lia). rewrite <- St, F2 in F. injection F as ->.
    apply (inner_ends _ r t fr rest o X St eq_refl Ho); [|assumption..]. intros ? ? ? ? Q. apply (On _ _ _ _ Q).
  Qed.
End Inner.

(** [vec.push_for_idx(|_| { vec.push(7); 8 })] on a vector of one element, with room for two: the inner call gets the
    later position, and makes the vector grow. *)
Definition pushes : list ritem := rcalls 0 RPushFor ++ rcalls 0 (RPlain (OPush 7)) ++ answer 0 (Some (AVal 8)).
Example C46_position_example : rexecution ex false false [5] 2 8 (rfinal [5] pushes) /\ inside (rhist (rfinal [5] pushes)) 2 0 RPushFor /\
  rhist (rfinal [5] pushes) =
    [NInv 0 0 0 RPushFor; NAcc 0 0 0 (AcAdd 1 1);
       NInv 2 0 1 (RPlain (OPush 7)); NAcc 2 0 1 (AcAdd 2 1); NAcc 2 0 1 (AcCap 2); NAcc 2 0 1 (AcInit 2 7); NRet 2 0 1 (RNat 2);
     NAcc 0 0 0 (AcCap 4); NAcc 0 0 0 (AcInit 1 8); NRet 0 0 0 (RNat 1)].
Proof.
  split; [apply rex_final; vm_compute; reflexivity|]. split; [|vm_compute; reflexivity].
  exists 0, 0, 1, (RPlain (OPush 7)). split; [lia|]. split; [split|]; vm_compute; reflexivity.
Qed.

(** The same on a full vector: the outer call would have to make room for both values, the inner one waits for it. *)
Definition full : list ritem := rcalls 0 RPushFor ++ [RLab (NLInv 0 (RPlain (OPush 7)))] ++ repeat (RLab (NLStep 0)) 20.
Lemma full_run : rexecution ex false false [5; 6] 2 8 (rfinal [5; 6] full).
Proof. apply rex_final. vm_compute. reflexivity. Qed.
Example C46_push_for_example : rexecution ex false false [5; 6] 2 8 (rfinal [5; 6] full) /\
  ropen (rhist (rfinal [5; 6] full)) 2 0 1 (RPlain (OPush 7)) /\ inside (rhist (rfinal [5; 6] full)) 2 0 RPushFor /\
  took (rhist (rfinal [5; 6] full)) 0 2 1 /\ cap (rsh (rfinal [5; 6] full)) = 2.
Proof.
  split; [exact full_run|]. split; [split; vm_compute; reflexivity|]. split.
  - exists 0, 0, 1, (RPlain (OPush 7)). split; [lia|]. split; [split|]; vm_compute; reflexivity.
  - split; [|vm_compute; reflexivity]. exists 0, 0. right. left. vm_compute. reflexivity.
Qed.
Example C46_waits_example : rexecution ex false false [5; 6] 2 8 (rfinal [5; 6] full) /\ rwaits ex (rfinal [5; 6] full) 0 /\
  rexecution ex false false [5; 6] 2 8 (rfinal [5; 6] self) /\ rwaits ex (rfinal [5; 6] self) 0.
Proof.
  split; [exact full_run|]. split; [vm_compute; reflexivity|]. split; [apply rex_final; vm_compute; reflexivity|]. vm_compute. reflexivity.
Qed.

(** [e0.map(|_| { vec.push(7); .. })]: the first element is locked, the vector has no room left; the call of [push] ends. *)
Definition room : list ritem := two ++ rcalls 0 (RElemMap 0) ++ [RLab (NLInv 0 (RPlain (OPush 7)))].
Lemma room_hist : exists a b c d e f g k l, rhist (rfinal [5; 6] room) =
  [NInv 0 0 0 (RPlain (OGet 0)); NAcc 0 0 0 a; NAcc 0 0 0 b; NAcc 0 0 0 c; NRet 0 0 0 d; NInv 5 0 0 (RPlain (OGet 1)); NAcc 5 0 0 e; NAcc 5 0 0 f; NAcc 5 0 0 g;
   NRet 5 0 0 k; NInv 10 0 0 (RElemMap 0); NInv 11 0 1 (RPlain (OPush l))].
Proof. do 9 eexists. vm_compute. reflexivity. Qed.
Example C46_ends_example : rexecution ex false false [5; 6] 2 8 (rfinal [5; 6] room) /\
  ropen (rhist (rfinal [5; 6] room)) 11 0 1 (RPlain (OPush 7)) /\
  (forall id' t' d' o', ropen (rhist (rfinal [5; 6] room)) id' t' d' o' -> t' = 0 /\ d' <= 1) /\
  has_lent (rhist (rfinal [5; 6] room)) 11 0 /\ (forall i, ~ touches (V := nat) (OPush 7) i) /\ ~ overrun (flatten (rfinal [5; 6] room)) /\
  (forall id' b, inside (rhist (rfinal [5; 6] room)) 11 id' RPushFor -> took (rhist (rfinal [5; 6] room)) id' b 1 -> b < cap (rsh (rfinal [5; 6] room))).
Proof.
  split; [apply rex_final; vm_compute; reflexivity|]. split; [split; vm_compute; reflexivity|].
  assert (Np : existsb is_pan (flatten (rfinal [5; 6] room)) = false) by (vm_compute; reflexivity).
  assert (Hl : has_lent (rhist (rfinal [5; 6] room)) 11 0).
  { exists 10, (RElemMap 0). split; [|vm_compute; reflexivity]. exists 0, 0, 1, (RPlain (OPush 7)). split; [lia|]. split; [split|]; vm_compute; reflexivity. }
  destruct room_hist as (xa & xb & xc & xd & xe & xf & xg & xk & xl & Hh).
  generalize dependent (flatten (rfinal [5; 6] room)). generalize dependent (cap (rsh (rfinal [5; 6] room))). generalize dependent (rhist (rfinal [5; 6] room)).
  intros h Hl Hh cp hf Np. split.
  - intros id t d o [I D]. subst h. do 12 (destruct id as [|id]; [cbn in I, D; try discriminate; injection I as <- <- _; lia|]). destruct id; discriminate.
  - split; [assumption|]. split; [simpl; auto|]. split.
    + now apply no_over.
    + intros id b (t & d & d2 & o2 & _ & [Q _] & _). exfalso. apply firstn_old in Q as [_ Q]. subst h. do 12 (destruct id as [|id]; [discriminate Q|]). destruct id; discriminate.
Qed.

Print Assumptions C46_waits.
Print Assumptions C46_position.
Print Assumptions C46_push_for.
Print Assumptions C46_ends.
