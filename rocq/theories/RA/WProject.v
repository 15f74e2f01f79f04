(** * Each of several vectors under release/acquire is an execution of [WReentrant.v].

    What the stores of the other vectors release about vector [w] is kept by threads without calls: such a thread
    synchronises with the thread that makes the store, and threads that acquire the store synchronise with it. *)

From Coq Require Import List Arith Bool Lia.
From Verif.Model Require Import Prog Mem Deps State Elem Vec Excl Machine Reentrant Network.
From Verif Require Import Client Nested.
From Verif.RA Require Import Weak WTrace WReentrant WNetwork WInv WNested WLent.
From Verif.Logic Require Import Reentry.
Import ListNotations.

Section Views.
  Context {V : Type} (E : env V).
  Implicit Types (q : qcfg V).

  (** [q] with other knowledge *)
  Definition set_views q (f : nat -> view) : qcfg V :=
    QCfg (q_mem q) f (q_run q) (q_next q) (q_res q) (q_panics q) (q_req q) (q_hist q) (q_ans q).
  Definition agrees q (f : nat -> view) (t : nat) : Prop := forall d, f (agent t d) = q_view q (agent t d).

  Lemma holder_agent t q : exists d, holder t q = agent t d.
  Proof. unfold holder. eauto. Qed.
  Lemma sync_step q f t u : turn (stack t (q_run q)) = true -> qstep E (set_views q f) (QSync t u) = QNext (set_views q (learn f (holder t q) (holder u q))).
  Proof. intros U. cbv beta iota zeta delta [qstep]. change (q_run (set_views q f)) with (q_run q). rewrite U. reflexivity. Qed.

  Lemma learn_at f a b x : learn f a b x = if x =? a then vjoin (f a) (f b) else f x.
  Proof. reflexivity. Qed.
  Lemma enter_agree q f t d u : agrees q f u -> (u = t \/ u <> t) -> forall d', enter f t d (agent u d') = enter (q_view q) t d (agent u d').
  Proof.
    intros A D d'. destruct d as [|d]; [apply A|]. cbn [enter]. rewrite !learn_at. destruct (Nat.eqb_spec (agent u d') (agent t (S d))) as [Q|Q]; [|apply A].
    apply agent_inj in Q as [-> _]. now rewrite !A.
  Qed.
  Lemma leave_agree q f t d u : agrees q f u -> forall d', leave f t d (agent u d') = leave (q_view q) t d (agent u d').
  Proof.
    intros A d'. destruct d as [|d]; [apply A|]. cbn [leave]. rewrite !learn_at. destruct (Nat.eqb_spec (agent u d') (agent t d)) as [Q|Q]; [|apply A].
    apply agent_inj in Q as [-> _]. now rewrite !A.
  Qed.
  Lemma enter_else f t d u d' : u <> t -> enter f t d (agent u d') = f (agent u d').
  Proof. intros N. destruct d; [reflexivity|]. cbn [enter]. unfold learn. apply upd_diff. now apply agent_other. Qed.

  (** A step does not depend on what other threads know. *)
  Definition follows q f l q' f' : Prop :=
    qstep E (set_views q f) l = QNext (set_views q' f') /\
    (l <> QClear -> forall u, agrees q f u -> agrees q' f' u) /\
    (l <> QClear -> forall u d, by_thread l <> Some u -> f' (agent u d) = f (agent u d)) /\
    (l = QClear -> forall x, f' x = vbot /\ q_view q' x = vbot).
  Lemma views_step q f l : (forall t, by_thread l = Some t -> agrees q f t) -> (forall t u, l <> QSync t u) ->
    match qstep E q l with
    | QNext q' => exists f', follows q f l q' f'
    | QFault x => qstep E (set_views q f) l = QFault x
    | QDisabled => qstep E (set_views q f) l = QDisabled
    end.
  Proof.
    intros A Ns. unfold follows. destruct l as [t o from|t k|t a|t u| |n]; cbv beta iota zeta delta [qstep];
      change (q_run (set_views q f)) with (q_run q); change (q_res (set_views q f)) with (q_res q); change (q_mem (set_views q f)) with (q_mem q); change (q_view (set_views q f)) with f.
    - specialize (A t eq_refl). destruct (turn _); [|reflexivity]. destruct (qfetch _ _ _) as [x|]; [|reflexivity]. set (d := length (stack t (q_run q))).
      exists (upd (enter f t d) (agent t d) (vjoin (enter f t d (agent t d)) x)). split; [|split; [|split; [|discriminate]]].
      + unfold set_views. cbn [q_mem q_view q_run q_next q_res q_panics q_req q_hist q_ans]. rewrite (enter_agree q f t d t A (or_introl eq_refl)). reflexivity.
      + intros _ u Au d'. cbn [q_view]. unfold upd. destruct (Nat.eqb_spec (agent u d') (agent t d)) as [Q|Q].
        * now rewrite (enter_agree q f t d t A (or_introl eq_refl)).
        * apply enter_agree; [assumption|]. destruct (Nat.eq_dec u t); auto.
      + intros _ u d' N. assert (u <> t) by (intros ->; now apply N). rewrite upd_diff by now apply agent_other. now apply enter_else.
    - specialize (A t eq_refl). destruct (stack t (q_run q)) as [|fr rest]; [reflexivity|].
      assert (Lv : forall rs ps h, exists f',
        QNext (QCfg (q_mem q) (leave f t (length rest)) (put t rest (q_run q)) (q_next q) rs ps (q_req q) h (q_ans q)) =
        QNext (set_views (QCfg (q_mem q) (leave (q_view q) t (length rest)) (put t rest (q_run q)) (q_next q) rs ps (q_req q) h (q_ans q)) f') /\
        (QStep (V := V) t k <> QClear -> forall u, agrees q f u -> agrees (QCfg (q_mem q) (leave (q_view q) t (length rest)) (put t rest (q_run q)) (q_next q) rs ps (q_req q) h (q_ans q)) f' u) /\
        (QStep (V := V) t k <> QClear -> forall u d, by_thread (QStep (V := V) t k) <> Some u -> f' (agent u d) = f (agent u d)) /\
        (QStep (V := V) t k = QClear -> forall x, f' x = vbot /\ leave (q_view q) t (length rest) x = vbot)).
      { intros rs ps h. exists (leave f t (length rest)). split; [reflexivity|]. split; [|split; [|discriminate]].
        - intros _ u Au d. cbn [q_view]. now apply leave_agree.
        - intros _ u d N. apply leave_other. intros ->. now apply N. }
      assert (Af : forall p M tv lg, exists f', QNext (qafter t (set_views q f) fr rest p M tv lg) = QNext (set_views (qafter t q fr rest p M tv lg) f') /\
        (QStep (V := V) t k <> QClear -> forall u, agrees q f u -> agrees (qafter t q fr rest p M tv lg) f' u) /\
        (QStep (V := V) t k <> QClear -> forall u d, by_thread (QStep (V := V) t k) <> Some u -> f' (agent u d) = f (agent u d)) /\
        (QStep (V := V) t k = QClear -> forall x, f' x = vbot /\ q_view (qafter t q fr rest p M tv lg) x = vbot)).
      { intros p M tv lg. exists (upd f (agent t (length rest)) tv). split; [reflexivity|]. split; [|split; [|discriminate]].
        - intros _ u Au d. unfold qafter. cbn [q_view]. unfold upd. destruct (_ =? _); [reflexivity|apply Au].
        - intros _ u d N. apply upd_diff, agent_other. intros ->. now apply N. }
      destruct (k_prog fr) as [v|m|a kk|a again kk|kk]; [| | | |reflexivity].
      + rewrite (A (length rest)). apply Lv.
      + apply Lv.
      + rewrite (A (length rest)). destruct (wexec _ _ _ _ _ _) as [y M tv|x|]; [apply Af|reflexivity ..].
      + rewrite (A (length rest)). destruct (wexec _ _ _ _ _ _) as [y M tv|x|]; [|reflexivity ..]. destruct (again y); [|apply Af].
        exists f. split; [reflexivity|]. split; [auto|]. split; [auto|discriminate].
    - destruct (stack t (q_run q)) as [|[n id o from [v|m|a' k|a' again k|k]] rest]; try reflexivity. exists f. split; [reflexivity|]. split; [auto|]. split; [auto|discriminate].
    - now destruct (Ns t u).
    - destruct (q_run q); [|reflexivity]. destruct (_ <=? _); [|reflexivity]. exists (fun _ => vbot). split; [reflexivity|]. split; [congruence|]. split; [congruence|]. intros _ x. auto.
    - destruct (q_run q) eqn:Q; [|reflexivity]. destruct (reserve _ _ _ _) as [m|]; exists f.
      + split; [unfold set_views; cbn; reflexivity|]. split; [auto|]. split; [auto|discriminate].
      + split; [unfold set_views; now rewrite Q|]. split; [auto|]. split; [auto|discriminate].
  Qed.
End Views.

(** ** Stacks *)
Section Stacks.
  Context {V : Type} (E : env V).
  Implicit Types (q : qcfg V).

  (** calls below the innermost one of a thread run closures *)
  Definition suspended q : Prop := forall t fr, In fr (tl (stack t (q_run q))) -> exists k, k_prog fr = RClo k.
  Lemma turn_tail q t : suspended q -> turn (tl (stack t (q_run q))) = true.
  Proof. intros S. specialize (S t). destruct (stack t (q_run q)) as [|fr [|fr' s]]; [reflexivity|reflexivity|]. cbn [tl turn] in *. destruct (S fr' (or_introl eq_refl)) as (k & ->). reflexivity. Qed.

  Definition moved_at q (l : qlabel V) q' (u : nat) : Prop :=
    stack u (q_run q') = stack u (q_run q) \/
    by_thread l = Some u /\ ((exists fr, turn (stack u (q_run q)) = true /\ stack u (q_run q') = fr :: stack u (q_run q) /\ exists o from, l = QInv u o from) \/
                             (exists fr' s fr, stack u (q_run q) = fr :: s /\ stack u (q_run q') = fr' :: s) \/
                             (exists fr k, stack u (q_run q) = fr :: stack u (q_run q') /\ l = QStep u k)).
  Definition moved q l q' : Prop := forall u, moved_at q l q' u.
  Lemma qstep_moved q l q' : qstep E q l = QNext q' -> moved q l q'.
  Proof.
    intros S. destruct l as [t o from|t k|t a|t u| |n]; cbv beta iota zeta delta [qstep] in S; intros u'; unfold moved_at.
    - destruct (turn _) eqn:U in S; [|discriminate]. destruct (qfetch _ _ _) as [x|]; [|discriminate]. apply qnext_inj in S; subst q'. cbn [q_run]. rewrite stack_put.
      destruct (Nat.eqb_spec u' t) as [->|]; [|auto]. right. split; [reflexivity|]. left. eexists. split; [exact U|]. split; [reflexivity|]. eauto.
    - destruct (stack t (q_run q)) as [|fr rest] eqn:St; [discriminate|].
      assert (Pop : forall M f n rs ps rq h a, moved_at q (QStep t k) (QCfg M f (put t rest (q_run q)) n rs ps rq h a) u').
      { intros. unfold moved_at. cbn [q_run]. rewrite stack_put. destruct (Nat.eqb_spec u' t) as [->|]; [|auto]. right. split; [reflexivity|]. right. right. rewrite St. eauto. }
      assert (Af : forall p M tv lg, moved_at q (QStep t k) (qafter t q fr rest p M tv lg) u').
      { intros. unfold moved_at, qafter. cbn [q_run]. rewrite stack_put. destruct (Nat.eqb_spec u' t) as [->|]; [|auto]. right. split; [reflexivity|]. right. left. rewrite St. eauto. }
      destruct (k_prog fr) as [v|m|a kk|a again kk|kk]; [| | | |discriminate].
      + apply qnext_inj in S; subst q'. apply Pop.
      + apply qnext_inj in S; subst q'. apply Pop.
      + destruct (wexec _ _ _ _ _ _) as [y M tv|x|]; [|discriminate ..]. apply qnext_inj in S; subst q'. apply Af.
      + destruct (wexec _ _ _ _ _ _) as [y M tv|x|]; [|discriminate ..]. destruct (again y); apply qnext_inj in S; subst q'; [auto|apply Af].
    - destruct (stack t (q_run q)) as [|[n id o from [v|m|a' k|a' again k|k]] rest] eqn:St; try discriminate. apply qnext_inj in S; subst q'. cbn [q_run]. rewrite stack_put.
      destruct (Nat.eqb_spec u' t) as [->|]; [|auto]. right. split; [reflexivity|]. right. left. rewrite St. eauto.
    - destruct (turn _) in S; [|discriminate]. apply qnext_inj in S; subst q'. auto.
    - destruct (q_run q) eqn:Q; [|discriminate]. destruct (_ <=? _) in S; [|discriminate]. apply qnext_inj in S; subst q'. left. reflexivity.
    - destruct (q_run q) eqn:Q; [|discriminate]. destruct (reserve _ _ _ _); apply qnext_inj in S; subst q'; left; [reflexivity|now rewrite Q].
  Qed.
  Lemma moved_susp q l q' : suspended q -> moved q l q' -> suspended q'.
  Proof.
    intros S M u fr I. destruct (M u) as [Q|(_ & [(f & U & Q & _)|[(f' & s & f & Q & Q')|(f & k & Q & _)]])].
    - rewrite Q in I. eauto.
    - rewrite Q in I. cbn [tl] in I. destruct (stack u (q_run q)) as [|fr' s] eqn:St; [contradiction|]. destruct I as [<-|I]; [|apply (S u); rewrite St; exact I].
      cbn [turn] in U. destruct (k_prog fr'); try discriminate. eauto.
    - rewrite Q' in I. apply (S u). rewrite Q. exact I.
    - apply (S u). rewrite Q. cbn [tl]. destruct (stack u (q_run q')); [contradiction|]. now right.
  Qed.
End Stacks.

Section Project.
  Context {V : Type} (E : nat -> env V) (ro : nat -> bool) (l0 : nat -> list V) (c0 m0 : nat -> nat).
  Implicit Types (c : xcfg V) (q : qcfg V).
  Notation xstart := (xstart l0 c0 m0).

  Record lined c : Prop := MkLined {
    li_susp : forall w, suspended (xvecs c w);
    li_turn : forall t w, xtop c t w = false -> turn (stack t (q_run (xvecs c w))) = true
  }.
  Lemma after_run c v l q w : w <> v -> q_run (vecs_after E c v l q w) = q_run (xvecs c w).
  Proof. intros N. unfold vecs_after. destruct (Nat.eqb_spec w v); [contradiction|]. destruct (by_thread l); [|reflexivity]. destruct (e_acq _); reflexivity. Qed.
  Lemma after_own c v l q : vecs_after E c v l q v = q.
  Proof. unfold vecs_after. now rewrite Nat.eqb_refl. Qed.
  Lemma turned c t : lined c -> xturn c t = true -> forall w, turn (stack t (q_run (xvecs c w))) = true.
  Proof.
    intros Li U w. destruct (xtop c t w) eqn:Tp; [|now apply (li_turn _ Li)]. unfold xtop, xturn in *. destruct (xopen c t) as [|[w' id] s]; [discriminate|].
    apply Nat.eqb_eq in Tp as ->. exact U.
  Qed.
  Lemma lined_step c l c' : lined c -> xstep E c l = XNext c' -> lined c'.
  Proof.
    intros Li S. destruct l as [v l|t u]; cbn [xstep] in S.
    - destruct (xmay c v l) eqn:May; [|discriminate]. destruct (qstep (E v) (xvecs c v) l) as [q|f|] eqn:St; try discriminate. injection S as <-.
      pose proof (qstep_moved _ _ _ _ St) as Mv. constructor; cbn [xvecs xopen].
      + intros w. destruct (Nat.eq_dec w v) as [->|N].
        * rewrite after_own. eapply moved_susp; [apply (li_susp _ Li)|exact Mv].
        * intros t fr I. rewrite after_run in I by assumption. eapply (li_susp _ Li); eauto.
      + intros t w Tp. assert (Rn : w <> v -> q_run (vecs_after E c v l q w) = q_run (xvecs c w)) by apply after_run.
        unfold xtop in Tp. cbn [xopen] in Tp.
        assert (Same : xcalls c v l q t = xopen c t -> stack t (q_run (vecs_after E c v l q w)) = stack t (q_run (xvecs c w)) -> turn (stack t (q_run (vecs_after E c v l q w))) = true).
        { intros Hx Hs. rewrite Hs. apply (li_turn _ Li). unfold xtop. now rewrite <- Hx. }
        destruct (Nat.eq_dec w v) as [->|N].
        * rewrite after_own in *. destruct (Mv t) as [Q|(By & [(f & U & Q & o & from & ->)|[(f' & s & f & Q & Q')|(f & k & Q & ->)]])].
          -- destruct (xcalls c v l q t) as [|[w' id] s] eqn:Xc; [|].
             { rewrite Q. destruct (xtop c t v) eqn:Old; [|now apply (li_turn _ Li)]. exfalso. unfold xtop in Old. destruct (xopen c t) as [|[w' id] s] eqn:Xo; [discriminate|].
               unfold xcalls in Xc. destruct l as [t' o' f'|t' k'|t' a'|t' u'| |n']; rewrite ?Xo in Xc; try discriminate.
               - unfold set_at in Xc. destruct (t =? t'); [discriminate|]. congruence.
               - destruct (_ <? _) eqn:Lt in Xc; [|congruence]. unfold set_at in Xc. destruct (Nat.eqb_spec t t') as [<-|]; [|congruence]. rewrite Q in Lt. apply Nat.ltb_lt in Lt. lia. }
             rewrite Q. destruct (xtop c t v) eqn:Old; [|now apply (li_turn _ Li)]. exfalso. unfold xtop in Old. destruct (xopen c t) as [|[w'' id'] s'] eqn:Xo; [discriminate|].
             apply Nat.eqb_eq in Old as ->. apply Nat.eqb_neq in Tp. unfold xcalls in Xc. destruct l as [t' o' f'|t' k'|t' a'|t' u'| |n']; rewrite ?Xo in Xc; try congruence.
             ++ unfold set_at in Xc. destruct (t =? t'); congruence.
             ++ destruct (_ <? _) eqn:Lt in Xc; [|congruence]. unfold set_at in Xc. destruct (Nat.eqb_spec t t') as [<-|]; [|congruence]. rewrite Q in Lt. apply Nat.ltb_lt in Lt. lia.
          -- exfalso. cbn [xcalls] in Tp. unfold set_at in Tp. rewrite Nat.eqb_refl in Tp. rewrite Nat.eqb_refl in Tp. discriminate.
          -- exfalso. assert (Hx : xtop c t v = true).
             { destruct l as [t' o' f0|t' k'|t' a'|t' u'| |n']; cbn [by_thread] in By; try discriminate; injection By as ->; cbn [xmay] in May; try assumption; try discriminate.
               exfalso. cbv beta iota zeta delta [qstep] in St. destruct (turn _) in St; [|discriminate]. destruct (qfetch _ _ _) in St; [|discriminate]. apply qnext_inj in St; subst q.
               cbn [q_run] in Q'. rewrite stack_put, Nat.eqb_refl, Q in Q'. injection Q' as _ Q'. apply (f_equal (@length _)) in Q'. simpl in Q'. lia. }
             unfold xtop in Hx. destruct (xopen c t) as [|[w' id] s0] eqn:Xo; [discriminate|]. unfold xcalls in Tp.
             destruct l as [t' o' f0|t' k'|t' a'|t' u'| |n']; rewrite ?Xo in Tp; try congruence.
             ++ unfold set_at in Tp. destruct (Nat.eqb_spec t t') as [->|]; [rewrite Nat.eqb_refl in Tp; discriminate|]. rewrite Xo in Tp. congruence.
             ++ destruct (_ <? _) eqn:Lt in Tp; [|rewrite Xo in Tp; congruence]. unfold set_at in Tp. destruct (Nat.eqb_spec t t') as [<-|]; [|rewrite Xo in Tp; congruence].
                rewrite Q, Q' in Lt. simpl in Lt. apply Nat.ltb_lt in Lt. lia.
          -- pose proof (turn_tail _ t (li_susp _ Li v)) as Tt. rewrite Q in Tt. exact Tt.
        * rewrite Rn by assumption. destruct (xtop c t w) eqn:Old; [|now apply (li_turn _ Li)].
          unfold xtop in Old. destruct (xopen c t) as [|[w'' id'] s'] eqn:Xo; [discriminate|]. apply Nat.eqb_eq in Old as ->.
          unfold xcalls in Tp. destruct l as [t' o' f0|t' k'|t' a'|t' u'| |n']; rewrite ?Xo, ?Nat.eqb_refl in Tp; try discriminate.
          -- unfold set_at in Tp. destruct (Nat.eqb_spec t t') as [<-|]; [|rewrite Xo, Nat.eqb_refl in Tp; discriminate].
             cbn [xmay] in May. exact (turned c t Li May w).
          -- destruct (_ <? _) eqn:Lt in Tp; [|rewrite Xo, Nat.eqb_refl in Tp; discriminate]. unfold set_at in Tp. destruct (Nat.eqb_spec t t') as [<-|]; [|rewrite Xo, Nat.eqb_refl in Tp; discriminate].
             cbn [xmay] in May. unfold xtop in May. rewrite Xo in May. apply Nat.eqb_eq in May. congruence.
    - destruct (xturn c t) eqn:U; [|discriminate]. injection S as <-. constructor; cbn [xvecs].
      + intros w. exact (li_susp _ Li w).
      + intros t' w Tp. exact (li_turn _ Li t' w Tp).
  Qed.
  Lemma lined_start : lined xstart.
  Proof. constructor; intros; [intros t fr []|reflexivity]. Qed.

  (** ** The simulation *)
  Lemma loc_code_inj a b : loc_code a = loc_code b -> a = b.
  Proof. destruct a, b; simpl; intros H; try discriminate; try reflexivity. f_equal. lia. Qed.
  Lemma place_eq p p' : place_eqb p p' = true <-> p = p'.
  Proof.
    destruct p as [a i], p' as [b j]. unfold place_eqb, loc_eqb. cbn [fst snd]. rewrite andb_true_iff, !Nat.eqb_eq. split; [intros [H ->]; now rewrite (loc_code_inj _ _ H)|now intros [= -> ->]].
  Qed.
  (** the thread that stands for a store of another vector *)
  Definition ghost (T v a : nat) (p : place) : nat := T + agent v (agent a (agent (loc_code (fst p)) (snd p))).
  Lemma ghost_inj T v a p v' a' p' : ghost T v a p = ghost T v' a' p' -> v = v' /\ a = a' /\ p = p'.
  Proof.
    unfold ghost. intros H. assert (K : agent v (agent a (agent (loc_code (fst p)) (snd p))) = agent v' (agent a' (agent (loc_code (fst p')) (snd p')))) by lia.
    apply agent_inj in K as [-> K]. apply agent_inj in K as [-> K]. apply agent_inj in K as [K1 K2]. destruct p, p'. cbn [fst snd] in *. apply loc_code_inj in K1. now subst.
  Qed.
  Lemma ghost_ge T v a p : T <= ghost T v a p.
  Proof. unfold ghost. lia. Qed.

  Record good (T : nat) c (w : nat) (f : nat -> view) : Prop := MkGood {
    go_view : forall t, t < T -> agrees (xvecs c w) f t;
    go_ghost : forall v a p, v <> w -> f (agent (ghost T v a p) 0) = xrel c v a p w;
    go_idle : forall t, T <= t -> stack t (q_run (xvecs c w)) = []
  }.
  Definition bounded (T : nat) (l : xlabel V) : Prop :=
    match l with XOn _ l => forall t, by_thread l = Some t -> t < T | XSync t u => t < T /\ u < T end.
  (** steps of the projection: [clear] only for [clear] *)
  Definition as_step (w : nat) (l : xlabel V) (q : qcfg V) (l' : qlabel V) : Prop := qclient (E w) (ro w) q l' /\ (l' = QClear -> l = XOn w QClear).
  Lemma qreach_trans (F : env V) P q1 q2 q3 : qreach F P q1 q2 -> qreach F P q2 q3 -> qreach F P q1 q3.
  Proof. intros A B. induction B; [assumption|]. eapply qreach_step; eauto. Qed.
  Lemma qreach_one (F : env V) (P : qcfg V -> qlabel V -> Prop) q l q' : P q l -> qstep F q l = QNext q' -> qreach F P q q'.
  Proof. intros. eapply qreach_step; [apply qreach_start|eauto|eauto]. Qed.
  Lemma qreach_more (F : env V) (P Q : qcfg V -> qlabel V -> Prop) q q' : (forall x l, P x l -> Q x l) -> qreach F P q q' -> qreach F Q q q'.
  Proof. intros H R. induction R; [apply qreach_start|]. eapply qreach_step; eauto. Qed.

  Lemma holder_idle q t : stack t (q_run q) = [] -> holder t q = agent t 0.
  Proof. intros H. unfold holder. now rewrite H. Qed.
  Lemma sync_as w l q t u f : turn (stack t (q_run q)) = true -> qreach (E w) (as_step w l) (set_views q f) (set_views q (learn f (holder t q) (holder u q))).
  Proof. intros U. eapply (qreach_one _ _ _ (QSync t u)); [split; [exact Logic.I|discriminate]|]. now apply sync_step. Qed.

  Lemma with_set q t v f : set_views (with_view q t v) f = set_views q f.
  Proof. reflexivity. Qed.

  Lemma xsim_step T c l c' w f : lined c -> good T c w f -> bounded T l -> xclient E ro c l -> xstep E c l = XNext c' ->
    exists f', qreach (E w) (as_step w l) (set_views (xvecs c w) f) (set_views (xvecs c' w) f') /\ good T c' w f'.
  Proof.
    intros Li G Bd Cl S. destruct G as [Gv Gg Gi]. destruct l as [v l|t u]; cbn [xstep] in S.
    - destruct (xmay c v l) eqn:May; [|discriminate]. destruct (qstep (E v) (xvecs c v) l) as [q|x|] eqn:St; try discriminate. injection S as <-.
      assert (Ns : forall t u, l <> QSync t u) by (intros t u ->; discriminate).
      assert (Idle : forall t, T <= t -> stack t (q_run (vecs_after E c v l q w)) = []).
      { intros t L. destruct (Nat.eq_dec w v) as [->|N]; [|rewrite after_run by assumption; auto]. rewrite after_own.
        destruct (qstep_moved _ _ _ _ St t) as [Q|(By & _)]; [rewrite Q; auto|]. cbn [bounded] in Bd. specialize (Bd _ By). lia. }
      destruct (Nat.eq_dec w v) as [->|Nw].
      + cbn [bounded] in Bd. pose proof (views_step (E v) (xvecs c v) f l (fun t By => Gv t (Bd t By)) Ns) as Vs. rewrite St in Vs. destruct Vs as (f' & Sf & A1 & A2 & A3).
        exists f'. cbn [xvecs]. rewrite after_own. split.
        { eapply qreach_one; [|exact Sf]. split; [exact Cl|]. now intros ->. }
        assert (Dl : l = QClear \/ l <> QClear) by (destruct l; auto; right; discriminate). destruct Dl as [->|Dl].
        * constructor; cbn [xvecs xrel].
          -- intros t L d. rewrite after_own. destruct (A3 eq_refl (agent t d)) as [-> ->]. reflexivity.
          -- intros v' a p N. destruct (A3 eq_refl (agent (ghost T v' a p) 0)) as [-> _]. cbn [rel_after]. now rewrite Nat.eqb_refl.
          -- exact Idle.
        * constructor; cbn [xvecs xrel].
          -- intros t L. rewrite after_own. apply A1; auto.
          -- intros v' a p N. rewrite (A2 Dl); [|intros By; specialize (Bd _ By); pose proof (ghost_ge T v' a p); lia].
             rewrite Gg by assumption. unfold rel_after. destruct l; try congruence; destruct (by_thread _); try reflexivity; destruct (e_new _); try reflexivity; rewrite Nat.eqb_refl; now rewrite andb_false_r.
          -- exact Idle.
      + assert (Up : forall t, xmay c v l = true -> by_thread l = Some t -> turn (stack t (q_run (xvecs c w))) = true).
        { intros t M By. destruct l as [t' o' f0|t' k'|t' a'|t' u'| |n']; cbn [by_thread] in By; try discriminate; injection By as ->; cbn [xmay] in M.
          - now apply turned.
          - apply (li_turn _ Li). unfold xtop in *. destruct (xopen c t) as [|[w' id] s]; [reflexivity|]. apply Nat.eqb_eq in M as ->. now apply Nat.eqb_neq; auto.
          - apply (li_turn _ Li). unfold xtop in *. destruct (xopen c t) as [|[w' id] s]; [reflexivity|]. apply Nat.eqb_eq in M as ->. now apply Nat.eqb_neq; auto. }
        set (e := qeffect (E v) (xvecs c v) l) in *. set (g := fun p => agent (ghost T v (xage c v) p) 0).
        assert (Gst : forall p, holder (ghost T v (xage c v) p) (xvecs c w) = g p) by (intros p; apply holder_idle, Gi, ghost_ge).
        destruct (by_thread l) as [t|] eqn:By.
        * specialize (Up t May eq_refl). assert (Lt : t < T) by (cbn [bounded] in Bd; auto). set (q0 := xvecs c w) in *. destruct (holder_agent t q0) as [dt Ht].
          assert (Tg : forall p d, agent t d <> g p) by (intros p d Q; apply agent_inj in Q as [Q _]; pose proof (ghost_ge T v (xage c v) p); lia).
          (* the acquired store *)
          set (f1 := match e_acq e with Some p => learn f (holder t q0) (g p) | None => f end).
          assert (R1 : qreach (E w) (as_step w (XOn v l)) (set_views q0 f) (set_views q0 f1)).
          { unfold f1. destruct (e_acq e) as [p|]; [|apply qreach_start]. rewrite <- Gst. now apply sync_as. }
          assert (F1g : forall v' a p, f1 (agent (ghost T v' a p) 0) = f (agent (ghost T v' a p) 0)).
          { intros v' a p. unfold f1. destruct (e_acq e); [|reflexivity]. unfold learn. apply upd_diff. rewrite Ht. intros Q. apply agent_inj in Q as [Q _]. pose proof (ghost_ge T v' a p). lia. }
          assert (F1h : f1 (holder t q0) = learned c v e t w).
          { unfold f1, learned, knowledge. fold q0. destruct (e_acq e) as [p|]; [|rewrite Ht; apply Gv; assumption]. rewrite learn_at, Nat.eqb_refl. unfold g. rewrite Gg by auto.
            rewrite Ht. now rewrite (Gv t Lt dt). }
          assert (F1v : forall u, u < T -> agrees (vecs_after E c v l q w) f1 u).
          { intros u Lu d. unfold vecs_after. destruct (Nat.eqb_spec w v); [contradiction|]. rewrite By. fold e. destruct (e_acq e) as [p|] eqn:Ea; [|unfold f1; now apply Gv].
            unfold with_view. cbn [q_view]. fold q0. unfold upd. destruct (Nat.eqb_spec (agent u d) (holder t q0)) as [Q|Q]; [rewrite Q; exact F1h|].
            unfold f1. rewrite learn_at. destruct (Nat.eqb_spec (agent u d) (holder t q0)); [contradiction|]. now apply Gv. }
          assert (Qv : forall h, set_views (vecs_after E c v l q w) h = set_views q0 h).
          { intros h. unfold vecs_after. destruct (Nat.eqb_spec w v); [contradiction|]. rewrite By. fold e. destruct (e_acq e); reflexivity. }
          (* the new store *)
          destruct (e_new e) as [p|] eqn:En.
          -- set (f2 := match e_prev e with Some p' => learn f1 (g p) (g p') | None => f1 end).
             set (f3 := if e_rel e then learn f2 (g p) (holder t q0) else f2).
             assert (Tu : turn (stack (ghost T v (xage c v) p) (q_run q0)) = true) by (unfold q0; rewrite Gi; [reflexivity|apply ghost_ge]).
             assert (R2 : qreach (E w) (as_step w (XOn v l)) (set_views q0 f1) (set_views q0 f2)).
             { unfold f2. destruct (e_prev e) as [p'|]; [|apply qreach_start]. rewrite <- !Gst. now apply sync_as. }
             assert (R3 : qreach (E w) (as_step w (XOn v l)) (set_views q0 f2) (set_views q0 f3)).
             { unfold f3. destruct (e_rel e); [|apply qreach_start]. rewrite <- Gst. now apply sync_as. }
             assert (F2o : forall x, x <> g p -> f2 x = f1 x) by (intros x N; unfold f2; destruct (e_prev e); [unfold learn; now apply upd_diff|reflexivity]).
             assert (F3o : forall x, x <> g p -> f3 x = f1 x) by (intros x N; unfold f3; destruct (e_rel e); [unfold learn; rewrite upd_diff by assumption|]; auto).
             exists f3. cbn [xvecs]. split; [rewrite Qv; eapply qreach_trans; [exact R1|]; eapply qreach_trans; eauto|]. constructor; cbn [xvecs xrel]; [| |exact Idle].
             ++ intros u Lu d. rewrite F3o; [now apply F1v|]. intros Q. apply agent_inj in Q as [Q _]. pose proof (ghost_ge T v (xage c v) p). lia.
             ++ intros v' a p' N. assert (Rl : rel_after E c v l v' a p' w = if (v' =? v) && (a =? xage c v) && place_eqb p' p && negb (w =? v) then released c v e t p w else xrel c v' a p' w).
                { unfold rel_after. destruct l; try discriminate; rewrite By; fold e; rewrite En; reflexivity. }
                rewrite Rl. destruct (Nat.eqb_spec w v); [contradiction|]. cbn [negb]. rewrite andb_true_r.
                destruct ((v' =? v) && (a =? xage c v) && place_eqb p' p) eqn:Is.
                ** rewrite !andb_true_iff, !Nat.eqb_eq, place_eq in Is. destruct Is as [[-> ->] ->]. fold (g p). unfold released.
                   assert (G1 : forall x, f1 (g x) = xrel c v (xage c v) x w) by (intros x; unfold g; rewrite F1g; apply Gg; auto).
                   assert (G2 : f2 (g p) = match e_prev e with Some p' => vjoin (xrel c v (xage c v) p w) (xrel c v (xage c v) p' w) | None => xrel c v (xage c v) p w end).
                   { unfold f2. destruct (e_prev e); [|apply G1]. rewrite learn_at, Nat.eqb_refl. now rewrite !G1. }
                   unfold f3. destruct (e_rel e); [|exact G2]. rewrite learn_at, Nat.eqb_refl, G2. f_equal. rewrite F2o by (rewrite Ht; apply Tg). exact F1h.
                ** rewrite F3o.
                   --- rewrite F1g. now apply Gg.
                   --- intros Q. apply agent_inj in Q as [Q _]. apply ghost_inj in Q as (-> & -> & ->). rewrite !Nat.eqb_refl in Is. cbn [andb] in Is. assert (place_eqb p p = true) by now apply place_eq. congruence.
          -- exists f1. cbn [xvecs]. split; [rewrite Qv; exact R1|]. constructor; cbn [xvecs xrel]; [exact F1v| |exact Idle].
             intros v' a p N. rewrite F1g. rewrite Gg by assumption. unfold rel_after. destruct l; try discriminate; rewrite By; fold e; rewrite En; reflexivity.
        * exists f. cbn [xvecs]. unfold vecs_after in *. destruct (Nat.eqb_spec w v); [contradiction|]. rewrite By in *. split; [apply qreach_start|].
          constructor; cbn [xvecs xrel].
          -- intros t L. destruct (Nat.eqb_spec w v); [contradiction|]. now apply Gv.
          -- intros v' a p N. rewrite Gg by assumption. unfold rel_after. destruct l; try discriminate; try reflexivity. destruct (Nat.eqb_spec w v); [contradiction|reflexivity].
          -- destruct (Nat.eqb_spec w v); [contradiction|exact Gi].
    - destruct (xturn c t) eqn:U; [|discriminate]. injection S as <-. destruct Bd as [Bt Bu]. exists (learn f (holder t (xvecs c w)) (holder u (xvecs c w))). cbn [xvecs]. rewrite with_set. split.
      + apply sync_as. now apply turned.
      + destruct (holder_agent t (xvecs c w)) as [dt Ht], (holder_agent u (xvecs c w)) as [du Hu]. constructor; cbn [xvecs xrel].
        * intros t' L d. unfold with_view. cbn [q_view]. rewrite learn_at. unfold upd. destruct (_ =? _); [|now apply Gv]. unfold knowledge. rewrite Ht, Hu. now rewrite (Gv t Bt dt), (Gv u Bu du).
        * intros v' a p N. rewrite learn_at, Ht. destruct (Nat.eqb_spec (agent (ghost T v' a p) 0) (agent t dt)) as [Q|Q]; [|now apply Gg].
          apply agent_inj in Q as [Q _]. pose proof (ghost_ge T v' a p). lia.
        * exact Gi.
  Qed.

  (** ** Executions *)
  Notation xexecution := (xexecution E ro l0 c0 m0).
  Notation wexec w := (qexecution (E w) (ro w) (l0 w) (c0 w) (m0 w)).
  (** reached by threads below [T] *)
  Definition within (T : nat) (P : xcfg V -> xlabel V -> Prop) c l : Prop := P c l /\ bounded T l.
  Lemma xreach_more (P Q : xcfg V -> xlabel V -> Prop) c c' : (forall x l, P x l -> Q x l) -> xreach E P c c' -> xreach E Q c c'.
  Proof. intros H R. induction R; [apply xreach_start|]. eapply xreach_step; eauto. Qed.
  Lemma xreach_trans P c1 c2 c3 : xreach E P c1 c2 -> xreach E P c2 c3 -> xreach E P c1 c3.
  Proof. intros A B. induction B; [assumption|]. eapply xreach_step; eauto. Qed.
  Lemma bounded_le T T' l : T <= T' -> bounded T l -> bounded T' l.
  Proof. intros L. destruct l as [v l|t u]; cbn [bounded]; [intros H t By; specialize (H t By); lia|lia]. Qed.
  Lemma bounded_ex l : exists T, bounded T l.
  Proof. destruct l as [v l|t u]; [|exists (S (Nat.max t u)); cbn; lia]. cbn [bounded]. destruct (by_thread l) as [t|]; [exists (S t); intros ? [= ->]; lia|exists 0; discriminate]. Qed.
  Lemma xreach_within P c c' : xreach E P c c' -> exists T, forall T', T <= T' -> xreach E (within T' P) c c'.
  Proof.
    intros R. induction R as [|c' l c'' R [T IH] H S]; [exists 0; intros; apply xreach_start|]. destruct (bounded_ex l) as [T2 B]. exists (Nat.max T T2). intros T' L.
    eapply xreach_step; [apply IH; lia| |exact S]. split; [assumption|]. eapply bounded_le; [|exact B]. lia.
  Qed.
  Lemma lined_reach P c c' : lined c -> xreach E P c c' -> lined c'.
  Proof. intros L R. induction R; [assumption|]. eapply lined_step; eauto. Qed.

  Lemma xsim T w c c' f : lined c -> good T c w f -> xreach E (within T (xclient E ro)) c c' ->
    exists f', qreach (E w) (qclient (E w) (ro w)) (set_views (xvecs c w) f) (set_views (xvecs c' w) f') /\ good T c' w f'.
  Proof.
    intros Li G R. induction R as [|c' l c'' R (f1 & R1 & G1) [C B] S]; [exists f; split; [apply qreach_start|assumption]|].
    destruct (xsim_step T c' l c'' w f1 (lined_reach _ _ _ Li R) G1 B C S) as (f2 & R2 & G2). exists f2. split; [|assumption].
    eapply qreach_trans; [exact R1|]. eapply qreach_more; [|exact R2]. intros x l' [H _]. exact H.
  Qed.
  Lemma xsim_keeping T w c c' f : lined c -> good T c w f -> xreach E (within T (keeping E (eq w) ro)) c c' ->
    exists f', qreach (E w) (calm (E w) (ro w)) (set_views (xvecs c w) f) (set_views (xvecs c' w) f') /\ good T c' w f'.
  Proof.
    intros Li G R. induction R as [|c' l c'' R (f1 & R1 & G1) [[C K] B] S]; [exists f; split; [apply qreach_start|assumption]|].
    destruct (xsim_step T c' l c'' w f1 (lined_reach _ _ _ Li R) G1 B C S) as (f2 & R2 & G2). exists f2. split; [|assumption].
    eapply qreach_trans; [exact R1|]. eapply qreach_more; [|exact R2]. intros x l' [H H']. split; [exact H|]. intros ->. exact (K w eq_refl (H' eq_refl)).
  Qed.
  Lemma good_start T w : good T xstart w (fun _ => vbot).
  Proof. constructor; intros; reflexivity || (intros d; reflexivity). Qed.

  (** What vector [w] sees, with threads below [T]. *)
  Theorem projects T w c : (forall w, env_ok (E w) /\ capok (E w) (c0 w) (m0 w) /\ length (l0 w) <= c0 w /\ length (l0 w) < wmod (E w)) ->
    xreach E (within T (xclient E ro)) xstart c -> exists f, wexec w (set_views (xvecs c w) f) /\ good T c w f.
  Proof.
    intros Ok R. destruct (xsim T w xstart c _ lined_start (good_start T w) R) as (f & Q & G). exists f. split; [|assumption].
    destruct (Ok w) as (A & B & C & D). repeat (split; [assumption|]). exact Q.
  Qed.
  Lemma xlined c : xexecution c -> lined c.
  Proof. intros [_ R]. eapply lined_reach; [apply lined_start|exact R]. Qed.
End Project.
