(** * Closures that use other vectors: the parts of an execution, what is suspended, who waits for whom. *)

From Coq Require Import List Arith Bool Lia Sorted.
From Verif.Model Require Import Prog Mem Deps State Elem Vec Excl Machine Reentrant Network.
From Verif Require Import Client Spec Nested Net.
From Verif.Logic Require Import Inv WP Post Specs Ops Sound Shape Clients Hist Locks Facts Trace Progress Gaps Borrows Reentry Nesting Inner.
Import ListNotations.

(** ** What a call of one vector waits for *)
Section Frames.
  Context {V : Type} (E : env V) (ro nl : bool) (l0 : list V) (c0 m0 : nat).
  Implicit Types (r : rcfg V).
  Notation rexec := (rexecution E ro nl l0 c0 m0).

  (** the call at depth [d'] of thread [t'] does not wait, unless it is [swap] *)
  Definition lively r t' d' (fr' : frame V) : Prop :=
    S d' = length (stack t' (rrun r)) -> rstep E r (NLStep t') = RNext r -> exists o, f_op fr' = RPlain o /\ swaps o = true /\ hspin E = true.
  Lemma waits_frame r t : rexec r -> rstep E r (NLStep t) = RNext r -> exists fr rest, stack t (rrun r) = fr :: rest /\
    ((exists i t' d' fr', rtouches (f_op fr) i /\ (t' = t -> d' < length rest) /\ frame_at (stack t' (rrun r)) d' = Some fr' /\ rtouches (f_op fr') i /\
        (forall k, f_prog fr' = RClo k -> lends (f_op fr') (length (values_read (rhist r) (f_id fr'))) = Some i) /\ lively r t' d' fr') \/
     (rgrows (f_op fr) = true /\ exists b, took (rhist r) (f_id fr) b (asks (f_op fr)) /\ cap (rsh r) < b /\
        ((exists t' d' fr', (t' = t -> d' < length rest) /\ frame_at (stack t' (rrun r)) d' = Some fr' /\ rgrows (f_op fr') = true /\
            a_pos (replay (abs0 l0 m0) (flatten r)) (cap (rsh r)) = Reserved (f_id fr') /\
            (forall k, f_prog fr' = RClo k -> f_op fr' = RPushFor /\ took (rhist r) (f_id fr') (cap (rsh r)) 1) /\ lively r t' d' fr') \/
         a_pos (replay (abs0 l0 m0) (flatten r)) (cap (rsh r)) = Abandoned)) \/
     (exists o1, f_op fr = RPlain o1 /\ self_swap o1 = true /\ hspin E = true)).
  Proof.
    intros X S. destruct (rstay_inv _ _ _ S) as (fr & rest & a & ag & k & y & s' & l & St & P & Ex & Ag).
    assert (F : frame_at (stack t (rrun r)) (length rest) = Some fr) by (rewrite St; apply top_frame).
    exists fr, rest. split; [assumption|].
    destruct (simulation _ _ _ _ _ _ _ X) as [R Sm]. destruct (Sm _ (consistent_self _)) as (c & Xc & Si). destruct (nest_of _ _ _ _ _ _ _ X) as [_ N].
    destruct (flat_frame _ _ _ _ _ _ Si F) as (x & Lk & M1 & M2 & A). rewrite P in A. apply agr_inv in A as (k' & A & _).
    assert (Sc : step E c (LStep (agent t (length rest))) = Next c).
    { simpl. unfold step_thread. rewrite Lk, A, (sm_sh _ _ _ Si), Ex, Ag. reflexivity. }
    destruct (waiting_on E ro nl l0 c0 m0 c _ Xc Sc) as (x' & snap & g & f & W & K & Lk' & Q). rewrite Lk in Lk'. injection Lk' as <-.
    assert (Hh : hist c = flatten r) by apply Si. pose proof (sm_sh _ _ _ Si) as Hs.
    assert (Ac : forall id, accs id (hist c) = raccs (rhist r) id) by (intros id; rewrite (sm_hist _ _ _ Si); apply raccs_flat).
    assert (Gr : forall (o : rop V) b n, rgrows o = true -> In (AcAdd b (request (with_answers n o))) (accs (c_id x) (hist c)) -> took (rhist r) (f_id fr) b (asks o)).
    { intros o b n _ Hin. apply took_accs. rewrite Ac, M1 in Hin. rewrite (same_request o n (fun _ => None)) in Hin. exact Hin. }
    destruct Q as [(u & z & Nu & Lu & _ & Sw & Q)|[(Ss & Wh & _)|(Gx & b & Hin & Lc & Ab)]].
    - destruct (flat_frame_inv _ _ _ _ _ Si Lu) as (t' & d' & fr' & -> & F' & M1' & M2' & A'). pose proof (frame_len _ _ _ F') as Ld.
      assert (Lt : t' = t -> d' < length rest).
      { intros ->. rewrite St in Ld. simpl in Ld. assert (d' <> length rest) by congruence. lia. }
      assert (Lv : lively r t' d' fr').
      { intros Hd S'. destruct (rstay_inv _ _ _ S') as (fr2 & rest2 & a2 & ag2 & k2 & y2 & s2 & l2 & St2 & P2 & Ex2 & Ag2).
        rewrite St2 in F', Hd. simpl in Hd. injection Hd as ->. rewrite top_frame in F'. injection F' as ->.
        rewrite P2 in A'. apply agr_inv in A' as (k3 & A' & _).
        assert (Sc' : step E c (LStep (agent t' (length rest2))) = Next c).
        { simpl. unfold step_thread. rewrite Lu, A', (sm_sh _ _ _ Si), Ex2, Ag2. reflexivity. }
        specialize (Sw Sc'). unfold waits_holding in Sw. apply andb_true_iff in Sw as [Sw1 Sw2]. rewrite M2' in Sw1. destruct (f_op fr'); try discriminate Sw1. eauto. }
      destruct Q as [(i & _ & _ & T1 & T2 & Hi)|(Gx & b & Hin & Lc & Gz & Rs)].
      + left. rewrite M2 in T1. rewrite M2' in T2. exists i, t', d', fr'. split; [eapply same_touches; exact T1|].
        split; [assumption|]. split; [assumption|]. split; [eapply same_touches; exact T2|]. split; [|assumption].
        intros k1 P1. eapply suspended_holds; eauto.
      + right. left. rewrite M2 in Gx, Hin. rewrite M2' in Gz. rewrite (same_grows _ _ (fun _ => None)) in Gx. rewrite (same_grows _ _ (fun _ => None)) in Gz. split; [exact Gx|]. exists b.
        split; [eapply Gr; eassumption|]. rewrite Hs in *. split; [assumption|]. left. exists t', d', fr'. rewrite <- Hh, <- M1'.
        split; [assumption|]. split; [assumption|]. split; [exact Gz|]. split; [assumption|]. split; [|assumption].
        intros k1 P1. rewrite M1'. eapply suspended_position; eauto. congruence.
    - right. right. unfold waits_holding in Wh. apply andb_true_iff in Wh as [_ Wh]. rewrite M2 in Ss. destruct (f_op fr); try discriminate Ss. eauto.
    - right. left. rewrite M2 in Gx, Hin. rewrite (same_grows _ _ (fun _ => None)) in Gx. split; [exact Gx|]. exists b.
      split; [eapply Gr; eassumption|]. rewrite Hs in *. split; [assumption|]. right. now rewrite <- Hh.
  Qed.
End Frames.

(** ** The stacks *)
Section Stacks.
  Context {V : Type} (E : env V).
  Implicit Types (r : rcfg V).

  Definition stacked (r r' : rcfg V) (t : nat) (s : list (frame V)) : Prop :=
    forall u, stack u (rrun r') = if u =? t then s else stack u (rrun r).
  Lemma stacked_same r t : stacked r r t (stack t (rrun r)).
  Proof. intros u. destruct (Nat.eqb_spec u t) as [->|]; reflexivity. Qed.
  Lemma frame_eta (fr : frame V) : Frame (f_id fr) (f_op fr) (f_prog fr) = fr.
  Proof. now destruct fr. Qed.

  (** what is left of a program after one step *)
  Definition rsub {R} (q p : rprog V R) : Prop :=
    match p with
    | RAct _ k => exists y, q = k y
    | RSpin _ _ k => exists y, q = k y
    | RClo k => exists a, q = k a
    | _ => False
    end.
  Lemma rsub_wf {R} (p : rprog V R) : Acc rsub p.
  Proof. induction p as [r|m|a k IH|a ag k IH|k IH]; constructor; intros q H; simpl in H; try contradiction; destruct H as (y & ->); apply IH. Qed.

  Lemma rstep_stacks r l r' : rstep E r l = RNext r' ->
    match l with
    | NLInv t o => stacked r r' t (Frame (length (rhist r)) o (rop_prog E o) :: stack t (rrun r))
    | NLStep t => exists fr rest s, stack t (rrun r) = fr :: rest /\ (forall k, f_prog fr <> RClo k) /\ stacked r r' t s /\
                    (s = rest /\ (exists e, rhist r' = rhist r ++ [e] /\ is_rend (f_id fr) e = true) \/ exists p, s = Frame (f_id fr) (f_op fr) p :: rest /\ (r' = r \/ rsub p (f_prog fr)))
    | NLAns t a => exists fr rest p, stack t (rrun r) = fr :: rest /\ stacked r r' t (Frame (f_id fr) (f_op fr) p :: rest) /\ rsub p (f_prog fr) /\ rhist r' = rhist r
    | NLClear | NLReserve _ => forall u, stack u (rrun r') = stack u (rrun r)
    end.
  Proof.
    intros S. destruct l as [t o|t|t a| |n]; cbv beta iota zeta delta [rstep] in S.
    - destruct (user_turn _) eqn:U in S; [|discriminate]. cbn [andb] in S. destruct (has_grant _ _) in S; [|discriminate]. apply rnext_inj in S; subst r'.
      intros u. cbn [rrun]. apply stack_put.
    - destruct (stack t (rrun r)) as [|fr rest] eqn:St; [discriminate|]. destruct (f_prog fr) as [v|m|a k|a again k|k] eqn:P; [| | | |discriminate].
      + apply rnext_inj in S; subst r'. exists fr, rest, rest. split; [reflexivity|]. split; [congruence|]. split; [intros u; cbn [rrun]; apply stack_put|]. left. split; [reflexivity|]. eexists. split; [reflexivity|]. apply Nat.eqb_refl.
      + apply rnext_inj in S; subst r'. exists fr, rest, rest. split; [reflexivity|]. split; [congruence|]. split; [intros u; cbn [rrun]; apply stack_put|]. left. split; [reflexivity|]. eexists. split; [reflexivity|]. apply Nat.eqb_refl.
      + destruct (exec _ _ _ _) as [y s lg|f] eqn:X; [|discriminate]. apply rnext_inj in S; subst r'. eexists fr, rest, _. split; [reflexivity|]. split; [congruence|].
        split; [intros u; unfold rafter; cbn [rrun]; apply stack_put|]. right. eexists. split; [reflexivity|]. right. rewrite P. eexists. reflexivity.
      + destruct (exec _ _ _ _) as [y s lg|f] eqn:X; [|discriminate]. destruct (again y) eqn:Ag; apply rnext_inj in S; subst r'.
        * exists fr, rest, (fr :: rest). split; [reflexivity|]. split; [congruence|]. split; [rewrite <- St; apply stacked_same|].
          right. exists (f_prog fr). rewrite frame_eta. auto.
        * eexists fr, rest, _. split; [reflexivity|]. split; [congruence|]. split; [intros u; unfold rafter; cbn [rrun]; apply stack_put|]. right. eexists. split; [reflexivity|]. right. rewrite P. eexists. reflexivity.
    - destruct (stack t (rrun r)) as [|[id o [v|m|a' k|a' again k|k]] rest] eqn:St; try discriminate. apply rnext_inj in S; subst r'.
      eexists _, rest, (k a). split; [reflexivity|]. split; [intros u; cbn [rrun f_id f_op]; apply stack_put|]. split; [eexists; reflexivity|reflexivity].
    - destruct (rrun r) eqn:Q; [|discriminate]. destruct (clear _); [|apply rnext_inj in S; subst r'; now rewrite Q|discriminate]. apply rnext_inj in S; subst r'. reflexivity.
    - destruct (rrun r) eqn:Q; [|discriminate]. destruct (reserve_maximum_capacity _ _ _) as [[m s]| |]; [|apply rnext_inj in S; subst r'; now rewrite Q|discriminate]. apply rnext_inj in S; subst r'. reflexivity.
  Qed.

  Lemma in_frame (fr : frame V) s : In fr s <-> exists d, frame_at s d = Some fr.
  Proof.
    split.
    - intros I. apply in_rev in I. now apply In_nth_error in I.
    - intros (d & F). apply nth_error_In in F. now apply in_rev.
  Qed.
  Lemma ids_once r t fr rest : ri r -> stack t (rrun r) = fr :: rest -> forall fr', In fr' rest -> f_id fr' <> f_id fr.
  Proof.
    intros R St fr' I Q. apply in_frame in I as (d & F). pose proof (frame_len _ _ _ F) as L.
    destruct (ids_differ r t d fr' t (length rest) fr R) as [_ Hd]; [rewrite St, frame_under by lia; assumption|rewrite St; apply top_frame|assumption|]. lia.
  Qed.
End Stacks.

(** ** The vectors of a network *)
Section Net.
  Context {V : Type} (E : nat -> env V) (ro nl : nat -> bool) (l0 : nat -> list V) (c0 m0 : nat -> nat).
  Implicit Types (c : ncfg V).
  Notation nexec := (nexecution E ro nl l0 c0 m0).
  Notation rexec w := (rexecution (E w) (ro w) (nl w) (l0 w) (c0 w) (m0 w)).

  Lemma set_here {A} (f : nat -> A) k x : set_at f k x k = x.
  Proof. unfold set_at. now rewrite Nat.eqb_refl. Qed.
  Lemma set_there {A} (f : nat -> A) k x j : j <> k -> set_at f k x j = f j.
  Proof. intros N. unfold set_at. apply Nat.eqb_neq in N. now rewrite N. Qed.

  Lemma nstep_inv c w l c' : nstep E c w l = NNext c' -> nmay c w l = true /\ exists r, rstep (E w) (vecs c w) l = RNext r /\
    c' = NCfg (set_at (vecs c) w r) (ncalls c w l r).
  Proof.
    unfold nstep. destruct (nmay c w l); [|discriminate]. destruct (rstep (E w) (vecs c w) l) as [r|f|]; try discriminate.
    intros [= <-]. split; [reflexivity|]. eauto.
  Qed.

  Lemma nexecution_step c w l c' : nexec c -> rclient (E w) (ro w) (nl w) (length (l0 w)) (vecs c w) l -> nstep E c w l = NNext c' -> nexec c'.
  Proof. intros [A R] C S. split; [assumption|]. eapply nreach_step; eauto. Qed.
  Lemma nexecution_trans c c' : nexec c -> nreach E ro nl l0 c c' -> nexec c'.
  Proof. intros X R. induction R; [assumption|]. eapply nexecution_step; eauto. Qed.

  Theorem net_vector c w : nexec c -> rexec w (vecs c w).
  Proof.
    intros [A R]. induction R as [|c1 w1 l c2 R IH C S].
    - destruct (A w) as (A1 & A2 & A3 & A4). repeat (split; [assumption|]). constructor.
    - destruct (nstep_inv _ _ _ _ S) as (_ & r & Sr & ->). cbn [vecs]. destruct (Nat.eq_dec w w1) as [->|N]; [|now rewrite set_there].
      rewrite set_here. eapply rexecution_step; eauto.
  Qed.

  Definition own (w : nat) (l : list (nat * nat)) : list nat := map snd (filter (fun x => fst x =? w) l).
  Record wired c : Prop := MkWired {
    wi_ids : forall t w, map f_id (stack t (rrun (vecs c w))) = own w (unfinished c t);
    wi_susp : forall t w fr, In fr (stack t (rrun (vecs c w))) -> (exists rest, unfinished c t = (w, f_id fr) :: rest) \/ exists k, f_prog fr = RClo k
  }.
  Lemma own_cons w x l : own w (x :: l) = if fst x =? w then snd x :: own w l else own w l.
  Proof. unfold own. simpl. destruct (fst x =? w); reflexivity. Qed.
  Lemma top_id c t w id rest fr s : wired c -> unfinished c t = (w, id) :: rest -> stack t (rrun (vecs c w)) = fr :: s -> f_id fr = id /\ map f_id s = own w rest.
  Proof. intros W Cl St. pose proof (wi_ids _ W t w) as H. rewrite Cl, St, own_cons in H. cbn [fst snd] in H. rewrite Nat.eqb_refl in H. now injection H as -> ->. Qed.

  Lemma wired_step c w l c' : nexec c -> wired c -> nstep E c w l = NNext c' -> wired c'.
  Proof.
    intros X W S. destruct (nstep_inv _ _ _ _ S) as (M & r & Sr & ->). pose proof (net_vector c w X) as Xw. destruct (nest_of _ _ _ _ _ _ _ Xw) as [Ri Ne].
    pose proof (rstep_stacks _ _ _ _ Sr) as K. destruct l as [t o|t|t a| |n]; cbn [nmay ncalls] in *.
    - assert (Us : forall w' fr, In fr (stack t (rrun (vecs c w'))) -> exists k, f_prog fr = RClo k).
      { intros w' fr I. destruct (wi_susp _ W t w' fr I) as [(rest & Cl)|?]; [|assumption]. unfold nturn in M. rewrite Cl in M.
        destruct (stack t (rrun (vecs c w'))) as [|fr0 s] eqn:St; [destruct I|]. destruct (top_id _ _ _ _ _ _ _ W Cl St) as [Hf _].
        destruct I as [->|I].
        - cbn [user_turn] in M. destruct (f_prog fr); try discriminate. eauto.
        - destruct (nest_of _ _ _ _ _ _ _ (net_vector c w' X)) as [Ri' _]. exfalso. now apply (ids_once _ _ _ _ Ri' St fr I). }
      constructor; cbn [vecs unfinished].
      + intros u w'. destruct (Nat.eq_dec w' w) as [->|Nw].
        * rewrite set_here, K. destruct (Nat.eqb_spec u t) as [->|Nu].
          -- rewrite set_here, own_cons. cbn [map f_id fst snd]. now rewrite Nat.eqb_refl, (wi_ids _ W).
          -- rewrite set_there by assumption. apply W.
        * rewrite set_there by assumption. destruct (Nat.eq_dec u t) as [->|Nu]; [|rewrite set_there by assumption; apply W].
          rewrite set_here, own_cons. cbn [fst snd]. destruct (Nat.eqb_spec w w'); [congruence|]. apply W.
      + intros u w' fr I. destruct (Nat.eq_dec u t) as [->|Nu].
        * rewrite set_here. destruct (Nat.eq_dec w' w) as [->|Nw]; [rewrite set_here, K, Nat.eqb_refl in I|rewrite set_there in I by assumption; right; eauto].
          destruct I as [<-|I]; [left; eauto|right; eauto].
        * rewrite set_there by assumption. apply W. destruct (Nat.eq_dec w' w) as [->|Nw]; [|rewrite set_there in I by assumption; assumption].
          rewrite set_here, K in I. destruct (Nat.eqb_spec u t); [contradiction|assumption].
    - unfold on_top in M. destruct (unfinished c t) as [|[w1 id] rest] eqn:Cl; [discriminate|]. apply Nat.eqb_eq in M as ->.
      destruct K as (fr & s0 & s & St & Nc & K & Q). destruct (top_id _ _ _ _ _ _ _ W Cl St) as [Hf Hr].
      assert (Us : forall w' fr', In fr' (stack t (rrun (vecs c w'))) -> (w' = w /\ fr' = fr) \/ exists k, f_prog fr' = RClo k).
      { intros w' fr' I. destruct (wi_susp _ W t w' fr' I) as [(rest' & Cl')|?]; [|now right]. rewrite Cl in Cl'. injection Cl' as <- Hi _. left. split; [reflexivity|].
        rewrite St in I. destruct I as [->|I]; [reflexivity|]. exfalso. apply (ids_once _ _ _ _ Ri St fr' I). congruence. }
      assert (Cs : (if length (stack t (rrun r)) <? length (stack t (rrun (vecs c w))) then set_at (unfinished c) t (tl ((w, id) :: rest)) else unfinished c) =
                   (if length s <? length (fr :: s0) then set_at (unfinished c) t rest else unfinished c)).
      { rewrite (K t), Nat.eqb_refl, St. reflexivity. }
      rewrite Cs. clear Cs. destruct Q as [[-> _]|(p & -> & _)].
      + replace (length s0 <? length (fr :: s0)) with true by (symmetry; apply Nat.ltb_lt; simpl; lia). constructor; cbn [vecs unfinished].
        * intros u w'. destruct (Nat.eq_dec w' w) as [->|Nw].
          -- rewrite set_here, K. destruct (Nat.eqb_spec u t) as [->|Nu]; [now rewrite set_here|]. rewrite set_there by assumption. apply W.
          -- rewrite set_there by assumption. destruct (Nat.eq_dec u t) as [->|Nu]; [|rewrite set_there by assumption; apply W].
             rewrite set_here, (wi_ids _ W), Cl, own_cons. cbn [fst]. destruct (Nat.eqb_spec w w'); [congruence|reflexivity].
        * intros u w' fr' I. destruct (Nat.eq_dec u t) as [->|Nu].
          -- right. assert (I' : In fr' (stack t (rrun (vecs c w'))) /\ (w' = w -> In fr' s0)).
             { destruct (Nat.eq_dec w' w) as [->|Nw]; [rewrite set_here, K, Nat.eqb_refl in I|rewrite set_there in I by assumption; split; [assumption|contradiction]].
               rewrite St. split; [now right|auto]. }
             destruct I' as [I1 I2]. destruct (Us _ _ I1) as [[-> ->]|?]; [|assumption]. exfalso. exact (ids_once _ _ _ _ Ri St _ (I2 eq_refl) eq_refl).
          -- rewrite set_there by assumption. apply W. destruct (Nat.eq_dec w' w) as [->|Nw]; [|rewrite set_there in I by assumption; assumption].
             rewrite set_here, K in I. destruct (Nat.eqb_spec u t); [contradiction|assumption].
      + replace (length (Frame (f_id fr) (f_op fr) p :: s0) <? length (fr :: s0)) with false by (symmetry; apply Nat.ltb_ge; simpl; lia). constructor; cbn [vecs unfinished].
        * intros u w'. destruct (Nat.eq_dec w' w) as [->|Nw]; [|rewrite set_there by assumption; apply W].
          rewrite set_here, K. destruct (Nat.eqb_spec u t) as [->|Nu]; [|apply W]. rewrite <- (wi_ids _ W), St. reflexivity.
        * intros u w' fr' I. destruct (Nat.eq_dec w' w) as [->|Nw]; [|rewrite set_there in I by assumption; now apply W].
          rewrite set_here, K in I. destruct (Nat.eqb_spec u t) as [->|Nu]; [|now apply W]. destruct I as [<-|I].
          -- left. exists rest. cbn [f_id]. now rewrite Hf.
          -- apply W. rewrite St. now right.
    - unfold on_top in M. destruct (unfinished c t) as [|[w1 id] rest] eqn:Cl; [discriminate|]. apply Nat.eqb_eq in M as ->.
      destruct K as (fr & s0 & p & St & K & _). destruct (top_id _ _ _ _ _ _ _ W Cl St) as [Hf Hr]. constructor; cbn [vecs unfinished].
      + intros u w'. destruct (Nat.eq_dec w' w) as [->|Nw]; [|rewrite set_there by assumption; apply W].
        rewrite set_here, K. destruct (Nat.eqb_spec u t) as [->|Nu]; [|apply W]. rewrite <- (wi_ids _ W), St. reflexivity.
      + intros u w' fr' I. destruct (Nat.eq_dec w' w) as [->|Nw]; [|rewrite set_there in I by assumption; now apply W].
        rewrite set_here, K in I. destruct (Nat.eqb_spec u t) as [->|Nu]; [|now apply W]. destruct I as [<-|I].
        * left. exists rest. cbn [f_id]. now rewrite Hf.
        * apply W. rewrite St. now right.
    - constructor; cbn [vecs unfinished].
      + intros u w'. destruct (Nat.eq_dec w' w) as [->|Nw]; [rewrite set_here, K|rewrite set_there by assumption]; apply W.
      + intros u w' fr' I. destruct (Nat.eq_dec w' w) as [->|Nw]; [rewrite set_here, K in I|rewrite set_there in I by assumption]; now apply W.
    - constructor; cbn [vecs unfinished].
      + intros u w'. destruct (Nat.eq_dec w' w) as [->|Nw]; [rewrite set_here, K|rewrite set_there by assumption]; apply W.
      + intros u w' fr' I. destruct (Nat.eq_dec w' w) as [->|Nw]; [rewrite set_here, K in I|rewrite set_there in I by assumption]; now apply W.
  Qed.
  Theorem net_wired c : nexec c -> wired c.
  Proof.
    intros [A R]. induction R as [|c1 w1 l c2 R IH C S].
    - constructor; [reflexivity|]. intros t w fr [].
    - eapply wired_step; eauto. split; assumption.
  Qed.
  (** finitely many vectors are in use *)
  Lemma net_bound c : nexec c -> exists n, forall t w id, In (w, id) (unfinished c t) -> w < n.
  Proof.
    intros [A R]. induction R as [|c1 w1 l c2 R (n & IH) C S]; [exists 0; intros t w id []|].
    destruct (nstep_inv _ _ _ _ S) as (_ & r & _ & ->). cbn [unfinished]. exists (Nat.max n (Datatypes.S w1)). intros t w id I.
    assert (Q : In (w, id) (unfinished c1 t) \/ w = w1).
    { destruct l as [u o|u|u a| |k]; cbn [ncalls] in I; auto.
      - destruct (Nat.eq_dec t u) as [->|N]; [rewrite set_here in I|rewrite set_there in I by assumption; auto]. destruct I as [I|I]; [|auto]. injection I as -> _. auto.
      - destruct (_ <? _); [|auto]. destruct (Nat.eq_dec t u) as [->|N]; [rewrite set_here in I|rewrite set_there in I by assumption; auto].
        left. destruct (unfinished c1 u); [destruct I|now right]. }
    destruct Q as [Q|Q]; [apply IH in Q|]; lia.
  Qed.

  (** ** Suspended calls *)
  Lemma own_in w id l : In id (own w l) <-> In (w, id) l.
  Proof.
    unfold own. rewrite in_map_iff. split.
    - intros ([w' id'] & <- & I). apply filter_In in I as [I Q]. simpl in *. apply Nat.eqb_eq in Q as ->. assumption.
    - intros I. exists (w, id). split; [reflexivity|]. apply filter_In. split; [assumption|]. apply Nat.eqb_refl.
  Qed.
  Lemma call_frame c t w id : nexec c -> In (w, id) (unfinished c t) -> exists d fr, frame_at (stack t (rrun (vecs c w))) d = Some fr /\ f_id fr = id.
  Proof.
    intros X I. apply own_in in I. rewrite <- (wi_ids _ (net_wired c X)) in I. apply in_map_iff in I as (fr & <- & I).
    apply in_frame in I as (d & F). eauto.
  Qed.
  Lemma frame_call c t w d fr : nexec c -> frame_at (stack t (rrun (vecs c w))) d = Some fr -> In (w, f_id fr) (unfinished c t).
  Proof. intros X F. apply own_in. rewrite <- (wi_ids _ (net_wired c X)). apply in_map, in_frame. eauto. Qed.

  Lemma own_nodup c t w : nexec c -> NoDup (own w (unfinished c t)).
  Proof.
    intros X. rewrite <- (wi_ids _ (net_wired c X)). destruct (nest_of _ _ _ _ _ _ _ (net_vector c w X)) as [Ri _].
    assert (K : forall d1 d2 fr1 fr2, frame_at (stack t (rrun (vecs c w))) d1 = Some fr1 -> frame_at (stack t (rrun (vecs c w))) d2 = Some fr2 -> f_id fr1 = f_id fr2 -> d1 = d2).
    { intros. eapply (ids_differ _ t d1 fr1 t d2 fr2); eauto. }
    clear - K. revert K. generalize (stack t (rrun (vecs c w))) as s. induction s as [|fr s IH]; intros K; [constructor|]. cbn [map]. constructor.
    - intros I. apply in_map_iff in I as (fr' & Q & I). apply in_frame in I as (d & F). pose proof (frame_len _ _ _ F) as L.
      specialize (K d (length s) fr' fr). rewrite frame_under, top_frame in K by lia. specialize (K F eq_refl Q). lia.
    - apply IH. intros d1 d2 fr1 fr2 F1 F2. pose proof (frame_len _ _ _ F1). pose proof (frame_len _ _ _ F2).
      apply K; rewrite frame_under by lia; assumption.
  Qed.
  Lemma tail_not_head c t w id rest : nexec c -> unfinished c t = (w, id) :: rest -> ~ In (w, id) rest.
  Proof.
    intros X Cl I. pose proof (own_nodup c t w X) as N. rewrite Cl, own_cons in N. cbn [fst snd] in N. rewrite Nat.eqb_refl in N.
    inversion N as [|? ? N1 _]. apply N1. now apply own_in.
  Qed.
  (** a call around another one is suspended *)
  Lemma tail_suspended c t x rest w id : nexec c -> unfinished c t = x :: rest -> In (w, id) rest ->
    exists d fr k, frame_at (stack t (rrun (vecs c w))) d = Some fr /\ f_id fr = id /\ f_prog fr = RClo k.
  Proof.
    intros X Cl I. destruct (call_frame c t w id X) as (d & fr & F & Hf); [rewrite Cl; now right|].
    destruct (wi_susp _ (net_wired c X) t w fr) as [(r2 & Q)|(k & P)]; [apply in_frame; eauto| |eauto 6].
    exfalso. rewrite Cl in Q. injection Q as -> ->. subst id. now apply (tail_not_head _ _ _ _ _ X Cl).
  Qed.

  (** the call that makes an event *)
  Lemma event_head c w l c' e id : nexec c -> nstep E c w l = NNext c' -> rhist (vecs c' w) = rhist (vecs c w) ++ [e] -> caller e = Some id ->
    id < length (rhist (vecs c w)) -> exists t rest, l = NLStep t /\ unfinished c t = (w, id) :: rest.
  Proof.
    intros X S Hh Ce L. destruct (nstep_inv _ _ _ _ S) as (M & r & Sr & ->). cbn [vecs] in Hh. rewrite set_here in Hh.
    destruct l as [t o|t|t a| |n]; cbv beta iota zeta delta [rstep] in Sr; cbn [nmay] in M.
    - destruct (user_turn _) in Sr; [|discriminate]. cbn [andb] in Sr. destruct (has_grant _ _) in Sr; [|discriminate]. apply rnext_inj in Sr; subst r.
      cbn [rhist] in Hh. apply app_inj_tail in Hh as [_ <-]. cbn [caller] in Ce. injection Ce as <-. lia.
    - exists t. unfold on_top in M. destruct (unfinished c t) as [|[w1 id1] rest] eqn:Cl; [discriminate|]. apply Nat.eqb_eq in M as ->. exists rest. split; [reflexivity|].
      destruct (stack t (rrun (vecs c w))) as [|fr s] eqn:St; [discriminate|]. destruct (top_id _ _ _ _ _ _ _ (net_wired c X) Cl St) as [<- _].
      assert (Q : caller e = Some (f_id fr)); [|congruence].
      destruct (f_prog fr) as [v|m|a k|a again k|k] eqn:P; [| | | |discriminate].
      + apply rnext_inj in Sr; subst r. cbn [rhist] in Hh. apply app_inj_tail in Hh as [_ <-]. reflexivity.
      + apply rnext_inj in Sr; subst r. cbn [rhist] in Hh. apply app_inj_tail in Hh as [_ <-]. reflexivity.
      + destruct (exec _ _ _ _) as [y s' lg|f] eqn:Ex; [|discriminate]. apply rnext_inj in Sr; subst r. unfold rafter in Hh. cbn [rhist] in Hh. apply app_inv_head in Hh.
        destruct lg as [|z lg]; [discriminate|]. injection Hh as <- _. reflexivity.
      + destruct (exec _ _ _ _) as [y s' lg|f] eqn:Ex; [|discriminate]. destruct (again y); apply rnext_inj in Sr; subst r.
        * apply (f_equal (@length _)) in Hh. rewrite app_length in Hh. simpl in Hh. lia.
        * unfold rafter in Hh. cbn [rhist] in Hh. apply app_inv_head in Hh. destruct lg as [|z lg]; [discriminate|]. injection Hh as <- _. reflexivity.
    - destruct (stack t (rrun (vecs c w))) as [|[id0 o [v|m|a' k|a' again k|k]] rest] eqn:St; try discriminate. apply rnext_inj in Sr; subst r.
      cbn [rhist] in Hh. apply (f_equal (@length _)) in Hh. rewrite app_length in Hh. simpl in Hh. lia.
    - destruct (rrun (vecs c w)) eqn:Q; [|discriminate]. destruct (clear _); [|apply rnext_inj in Sr; subst r|discriminate].
      + apply rnext_inj in Sr; subst r. cbn [rhist] in Hh. apply app_inj_tail in Hh as [_ <-]. discriminate.
      + apply (f_equal (@length _)) in Hh. rewrite app_length in Hh. simpl in Hh. lia.
    - destruct (rrun (vecs c w)) eqn:Q; [|discriminate]. destruct (reserve_maximum_capacity _ _ _) as [[m s]| |]; [|apply rnext_inj in Sr; subst r|discriminate].
      + apply rnext_inj in Sr; subst r. cbn [rhist] in Hh. apply app_inj_tail in Hh as [_ <-]. discriminate.
      + apply (f_equal (@length _)) in Hh. rewrite app_length in Hh. simpl in Hh. lia.
  Qed.
  (** each thread's unfinished calls are its own *)
  Lemma one_thread c t t' w id : nexec c -> In (w, id) (unfinished c t) -> In (w, id) (unfinished c t') -> t = t'.
  Proof.
    intros X I I'. destruct (call_frame _ _ _ _ X I) as (d & fr & F & H). destruct (call_frame _ _ _ _ X I') as (d' & fr' & F' & H').
    destruct (nest_of _ _ _ _ _ _ _ (net_vector c w X)) as [Ri _]. destruct (ids_differ _ _ _ _ _ _ _ Ri F F'); congruence.
  Qed.
  Lemma call_old c t w id : nexec c -> In (w, id) (unfinished c t) -> id < length (rhist (vecs c w)) /\ rdone (rhist (vecs c w)) id = false.
  Proof.
    intros X I. destruct (call_frame _ _ _ _ X I) as (d & fr & F & <-). destruct (nest_of _ _ _ _ _ _ _ (net_vector c w X)) as [Ri Ne].
    split; [|eapply ne_open; eauto]. apply (ri_ids _ Ri) in F. apply nth_error_Some. congruence.
  Qed.

  (** A suspended call makes no event. *)
  Lemma silent c w l c' t x rest w1 id1 : nexec c -> nstep E c w l = NNext c' -> unfinished c t = x :: rest -> In (w1, id1) rest ->
    rhist (vecs c' w1) = rhist (vecs c w1) \/ exists e, rhist (vecs c' w1) = rhist (vecs c w1) ++ [e] /\ caller e <> Some id1.
  Proof.
    intros X S Cl I. destruct (nstep_inv _ _ _ _ S) as (M & r & Sr & Q). destruct (Nat.eq_dec w1 w) as [->|Nw]; [|left; subst c'; cbn [vecs]; now rewrite set_there].
    assert (Hr : vecs c' w = r) by (subst c'; cbn [vecs]; apply set_here). destruct (hist_grows _ _ _ _ Sr) as [Hh|(e & Hh)]; rewrite <- Hr in Hh; [now left|].
    right. exists e. split; [assumption|]. intros Ce. assert (I' : In (w, id1) (unfinished c t)) by (rewrite Cl; now right).
    destruct (event_head _ _ _ _ _ _ X S Hh Ce) as (t' & rest' & _ & Cl'); [now apply (call_old c t)|].
    assert (t' = t) by (eapply (one_thread c t' t w id1); [assumption|rewrite Cl'; now left|assumption]). subst t'.
    rewrite Cl in Cl'. injection Cl' as -> ->. now apply (tail_not_head _ _ _ _ _ X Cl).
  Qed.
  (** Calls stay where they are until they end. *)
  Lemma within_step c w l c' w2 id2 w1 id1 : nexec c -> nstep E c w l = NNext c' -> within c w2 id2 w1 id1 ->
    rdone (rhist (vecs c' w2)) id2 = false -> within c' w2 id2 w1 id1.
  Proof.
    intros X S (t & h & rest & Cl & I) D. destruct (nstep_inv _ _ _ _ S) as (M & r & Sr & ->).
    assert (K : exists h', ncalls c w l r t = h' ++ (w2, id2) :: rest).
    { destruct l as [u o|u|u a| |n]; cbn [ncalls nmay] in *; eauto.
      - destruct (Nat.eq_dec t u) as [->|N]; [|rewrite set_there by assumption; eauto]. rewrite set_here, Cl. eexists (_ :: h). reflexivity.
      - destruct (_ <? _) eqn:Lt; [|eauto]. destruct (Nat.eq_dec t u) as [->|N]; [|rewrite set_there by assumption; eauto]. rewrite set_here, Cl.
        destruct h as [|y h]; [|exists h; reflexivity]. exfalso. unfold on_top in M. rewrite Cl in M. simpl in M. apply Nat.eqb_eq in M as ->.
        destruct (rstep_stacks _ _ _ _ Sr) as (fr & s0 & s & St & _ & K & Q). apply Nat.ltb_lt in Lt. rewrite K, Nat.eqb_refl, St in Lt.
        destruct Q as [[-> (e & He & Re)]|(p & -> & _)]; [|simpl in Lt; lia]. destruct (top_id _ _ _ _ _ _ _ (net_wired c X) Cl St) as [Hf _].
        cbn [vecs] in D. rewrite set_here, He, rdone_snoc, <- Hf, Re, orb_true_r in D. discriminate. }
    destruct K as (h' & K). exists t, h', rest. cbn [unfinished]. auto.
  Qed.

  (** ** Who waits for whom *)
  Lemma rwaits_dec w (r : rcfg V) t : {rstep (E w) r (NLStep t) = RNext r} + {rstep (E w) r (NLStep t) <> RNext r}.
  Proof.
    destruct (stack t (rrun r)) as [|fr rest] eqn:St; [right; intros S; destruct (rstay_inv _ _ _ S) as (? & ? & ? & ? & ? & ? & ? & ? & St' & _); congruence|].
    destruct (f_prog fr) as [v|m|a k|a again k|k] eqn:P.
    1-3,5: right; intros S; destruct (rstay_inv _ _ _ S) as (? & ? & ? & ? & ? & ? & ? & ? & St' & P' & _); congruence.
    destruct (exec (E w) (agent t (length rest)) a (rsh r)) as [y s l|f] eqn:Ex.
    - destruct (again y) eqn:Ag; [left; cbn [rstep]; now rewrite St, P, Ex, Ag|]. right. intros S.
      cbn [rstep] in S. rewrite St, P, Ex, Ag in S. injection S as S.
      assert (Q : stack t (rrun (rafter t r fr rest (k y) s l)) = fr :: rest) by now rewrite S.
      unfold rafter in Q. cbn [rrun] in Q. rewrite stack_put, Nat.eqb_refl in Q. injection Q as Q. pose proof (rno_loop (f_prog fr)) as NL. rewrite P in NL.
      apply (NL y). rewrite <- P, <- Q at 1. reflexivity.
    - right. intros S. cbn [rstep] in S. rewrite St, P, Ex in S. discriminate.
  Qed.
  Lemma nwaits_dec c t : nwaits E c t \/ ~ nwaits E c t.
  Proof.
    destruct (unfinished c t) as [|[w id] rest] eqn:Cl; [right; intros (w & id & rest & Q & _); congruence|].
    destruct (rwaits_dec w (vecs c w) t) as [Y|N]; [left; exists w, id, rest; auto|]. right. intros (w' & id' & rest' & Q & S). rewrite Cl in Q. injection Q as <- _ _. contradiction.
  Qed.

  (** ** What the calls have left to do *)
  Definition left_of c t (x : nat * nat) : option (rprog V (ret V)) :=
    Datatypes.option_map f_prog (find (fun fr => f_id fr =? snd x) (stack t (rrun (vecs c (fst x))))).
  Definition nleft c t : list (option (rprog V (ret V))) := map (left_of c t) (unfinished c t).
  Inductive fewer : list (option (rprog V (ret V))) -> list (option (rprog V (ret V))) -> Prop :=
  | fewer_sub q p l : rsub q p -> fewer (Some q :: l) (Some p :: l)
  | fewer_end p l : fewer l (p :: l).
  Lemma fewer_wf l : Acc fewer l.
  Proof.
    induction l as [|x l IH]; [constructor; intros y H; inversion H|]. destruct x as [p|].
    - induction (rsub_wf p) as [p _ IHp]. constructor. intros y H. inversion H; subst; auto.
    - constructor. intros y H. inversion H; subst; auto.
  Qed.

  (** a step of the innermost call, or an answer to it *)
  Lemma left_step c w t l c' rest id : nexec c -> (l = NLStep t /\ rstep (E w) (vecs c w) l <> RNext (vecs c w) \/ exists a, l = NLAns t a) ->
    nstep E c w l = NNext c' -> unfinished c t = (w, id) :: rest ->
    (forall u, u <> t -> unfinished c' u = unfinished c u /\ nleft c' u = nleft c u) /\ fewer (nleft c' t) (nleft c t) /\
    (unfinished c' t = (w, id) :: rest \/ unfinished c' t = rest).
  Proof.
    intros X Hl S Cl. destruct (nstep_inv _ _ _ _ S) as (_ & r & Sr & ->). pose proof (net_wired c X) as W.
    assert (K : exists fr s p, stack t (rrun (vecs c w)) = fr :: s /\
              (stacked (vecs c w) r t s /\ ncalls c w l r = set_at (unfinished c) t rest \/
               stacked (vecs c w) r t (Frame (f_id fr) (f_op fr) p :: s) /\ ncalls c w l r = unfinished c /\ rsub p (f_prog fr))).
    { pose proof (rstep_stacks _ _ _ _ Sr) as K. destruct Hl as [[-> Ne]|(a & ->)].
      - destruct K as (fr & s & s' & St & _ & K & Q). exists fr, s. cbn [ncalls]. rewrite (K t), Nat.eqb_refl, St, Cl.
        destruct Q as [[-> _]|(p & -> & [->|Q])]; [exists (f_prog fr)|contradiction|exists p].
        + split; [reflexivity|]. left. split; [assumption|]. replace (length s <? length (fr :: s)) with true by (symmetry; apply Nat.ltb_lt; simpl; lia). reflexivity.
        + split; [reflexivity|]. right. split; [assumption|]. split; [|assumption].
          replace (length (Frame (f_id fr) (f_op fr) p :: s) <? length (fr :: s)) with false by (symmetry; apply Nat.ltb_ge; simpl; lia). reflexivity.
      - destruct K as (fr & s & p & St & K & Q & _). exists fr, s, p. split; [assumption|]. right. auto. }
    destruct K as (fr & s & p & St & K). destruct (top_id _ _ _ _ _ _ _ W Cl St) as [Hf _].
    assert (Ot : forall u s' x f, u <> t -> stacked (vecs c w) r t s' -> left_of (NCfg (set_at (vecs c) w r) f) u x = left_of c u x).
    { intros u s' [w1 id1] f Nu Sk. unfold left_of. cbn [vecs fst snd]. destruct (Nat.eq_dec w1 w) as [->|Nw]; [rewrite set_here, Sk|rewrite set_there by assumption; reflexivity].
      destruct (Nat.eqb_spec u t); [contradiction|reflexivity]. }
    assert (Un : forall x s' f, In x rest -> stacked (vecs c w) r t s' -> (s' = s \/ s' = Frame (f_id fr) (f_op fr) p :: s) -> left_of (NCfg (set_at (vecs c) w r) f) t x = left_of c t x).
    { intros [w1 id1] s' f Ix Sk Hs. unfold left_of. cbn [vecs fst snd]. destruct (Nat.eq_dec w1 w) as [->|Nw]; [rewrite set_here, Sk, Nat.eqb_refl, St|rewrite set_there by assumption; reflexivity].
      assert (N : (f_id fr =? id1) = false). { apply Nat.eqb_neq. intros e. apply (tail_not_head _ _ _ _ _ X Cl). now rewrite <- Hf, e. }
      destruct Hs as [->| ->]; cbn [find f_id]; rewrite N; reflexivity. }
    assert (Top : left_of c t (w, id) = Some (f_prog fr)).
    { unfold left_of. cbn [fst snd]. rewrite St. cbn [find]. now rewrite Hf, Nat.eqb_refl. }
    destruct K as [[Sk Hc]|(Sk & Hc & Sb)].
    - split; [|split].
      + intros u Nu. unfold nleft. cbn [unfinished]. rewrite Hc, set_there by assumption. split; [reflexivity|]. apply map_ext. intros x. now apply (Ot u s).
      + unfold nleft. cbn [unfinished]. rewrite Hc, set_here, Cl. cbn [map]. replace (map (left_of (NCfg (set_at (vecs c) w r) (set_at (unfinished c) t rest)) t) rest) with (map (left_of c t) rest); [apply fewer_end|].
        apply map_ext_in. intros x Ix. symmetry. apply (Un x s); auto.
      + right. cbn [unfinished]. now rewrite Hc, set_here.
    - split; [|split].
      + intros u Nu. unfold nleft. cbn [unfinished]. rewrite Hc. split; [reflexivity|]. apply map_ext. intros x. now apply (Ot u (Frame (f_id fr) (f_op fr) p :: s)).
      + unfold nleft. cbn [unfinished]. rewrite Hc, Cl. cbn [map]. rewrite Top.
        replace (left_of (NCfg (set_at (vecs c) w r) (unfinished c)) t (w, id)) with (Some p).
        2:{ unfold left_of. cbn [vecs fst snd]. rewrite set_here, Sk, Nat.eqb_refl. cbn [find f_id]. now rewrite Hf, Nat.eqb_refl. }
        replace (map (left_of (NCfg (set_at (vecs c) w r) (unfinished c)) t) rest) with (map (left_of c t) rest); [now apply fewer_sub|].
        apply map_ext_in. intros x Ix. symmetry. apply (Un x (Frame (f_id fr) (f_op fr) p :: s)); auto.
      + left. cbn [unfinished]. now rewrite Hc.
  Qed.
  Lemma net_threads c : nexec c -> exists n, forall t, n <= t -> unfinished c t = [].
  Proof.
    intros [A R]. induction R as [|c1 w1 l c2 R (n & IH) C S]; [exists 0; reflexivity|].
    destruct (nstep_inv _ _ _ _ S) as (_ & r & _ & ->). cbn [unfinished]. exists (match l with NLInv t _ => Nat.max n (Datatypes.S t) | _ => n end). intros t L.
    destruct l as [u o|u|u a| |k]; cbn [ncalls]; auto.
    - rewrite set_there by lia. apply IH. lia.
    - destruct (_ <? _); [|auto]. destruct (Nat.eq_dec t u) as [->|N]; [rewrite set_here, IH by assumption; reflexivity|]. rewrite set_there by assumption. auto.
  Qed.

  (** ** Panics of growth calls *)
  Lemma calm_step c w l c' : ~ overran c -> nstep E c w l = NNext c' -> overran c' \/ ~ overran c'.
  Proof.
    intros N S. destruct (nstep_inv _ _ _ _ S) as (_ & r & _ & ->). destruct (over_dec (flatten r)) as [P|P].
    - left. exists w. cbn [vecs]. now rewrite set_here.
    - right. intros (w' & G). cbn [vecs] in G. destruct (Nat.eq_dec w' w) as [->|Nw]; [rewrite set_here in G; contradiction|].
      rewrite set_there in G by assumption. apply N. exists w'. exact G.
  Qed.
End Net.
