(** * Under release/acquire a call has the handles that its program says it has.

    Without the unsafe methods, so nobody else reads or changes a value while a call refers to it. *)

From Coq Require Import List Arith Bool Lia.
From Verif.Model Require Import Prog Mem Deps State Elem Vec Excl Machine.
From Verif Require Import Client.
From Verif.Logic Require Import Shape Clients Locks Progress Holding.
From Verif.RA Require Import Weak WFair WInv WStep WSlots WSpecs WOps WSound WLocks.
Import ListNotations.
Local Arguments Nat.leb : simpl never.
Local Arguments Nat.ltb : simpl never.
Local Arguments Nat.eqb : simpl never.
Local Arguments Nat.modulo : simpl never.

Section WHolding.
  Context {V : Type} (E : env V).
  Hypothesis EOK : env_ok E.
  Notation ro := false.
  Notation SI := (SI E ro).
  Notation WI := (WI E ro).
  Notation world := (world E ro).
  Implicit Types (c : wcfg V) (M : wmem V) (g : nat -> wgst) (f : nat -> list nat * nat) (B : nat -> list nat).

  Lemma remove1_in i j (l : list nat) : In j (remove1 i l) -> In j l.
  Proof. induction l as [|x l IH]; simpl; [auto|]. destruct (i =? x); simpl; [auto|]. intros [->|H]; auto. Qed.
  Lemma remove1_not i (l : list nat) : NoDup l -> ~ In i (remove1 i l).
  Proof.
    intros N. induction N as [|x l Hx N IH]; simpl; [auto|]. destruct (Nat.eqb_spec i x) as [->|Ne]; [assumption|]. intros [->|H]; auto.
  Qed.
  Lemma remove1_nodup i (l : list nat) : NoDup l -> NoDup (remove1 i l).
  Proof.
    intros N. induction N as [|x l Hx N IH]; simpl; [constructor|]. destruct (i =? x); [assumption|]. constructor; [|assumption]. intros H. apply Hx. eapply remove1_in; eauto.
  Qed.

  (** an access keeps the handles of the call, and takes only one that nobody has *)
  Lemma wexec_keeps id (a : act V) k M tv y M' tv' H : mle ro M M' -> wexec E id a k M tv = WDone y M' tv' -> lok H a -> NoDup H ->
    (forall j, In j H -> top (ws (sl M j)) = RESERVED) ->
    NoDup (held H a y) /\ forall j, In j (held H a y) -> top (ws (sl M' j)) = RESERVED /\ (In j H \/ top (ws (sl M j)) <> RESERVED).
  Proof.
    intros Le X K Nd T.
    assert (Same : forall j, In j H -> ws (sl M' j) = ws (sl M j) -> top (ws (sl M' j)) = RESERVED /\ (In j H \/ top (ws (sl M j)) <> RESERVED)).
    { intros j Hj e. rewrite e. auto. }
    assert (Pt : forall i z j, (put_slot M i z) = M' -> ws z = ws (sl M i) -> ws (sl M' j) = ws (sl M j)).
    { intros i z j <- e. unfold sl, put_slot, upd. cbn [m_slots]. destruct (Nat.eqb_spec j i) as [->|]; [exact e|reflexivity]. }
    destruct a; cbn [held] in *; cbn [wexec] in X; unfold with_wslot in X;
      repeat (match type of X with context [match ?e with _ => _ end] => destruct e eqn:? end; try discriminate); injection X as <- <- <-;
      try (split; [assumption|]; intros jj Hj; apply Same; [assumption|reflexivity]);
      try (split; [assumption|]; intros jj Hj; apply Same; [assumption|]; eapply Pt; [reflexivity|reflexivity]).
    - assert (Tp : top (ws (sl M i)) = mval m).
      { unfold top, sl. assert (Hl : last_ts (ws (m_slots M i)) = k).
        { unfold last_ts. assert (k < length (ws (m_slots M i))) by (apply nth_error_Some; congruence).
          match goal with Q : nth_error _ (S k) = None |- _ => apply nth_error_None in Q end. lia. }
        rewrite Hl. match goal with Q : nth_error _ k = Some m |- _ => now rewrite Q end. }
      assert (Te : top (ws (sl M i)) <> RESERVED).
      { rewrite Tp. match goal with Q : st_eqb (mval m) e = true |- _ => revert Q end. destruct K as [K _]. destruct (mval m), e; simpl; congruence. }
      cbn [fst]. split; [constructor; [intros Hi; apply Te, T, Hi|assumption]|]. intros j [<-|Hj].
      + split; [|now right]. unfold sl, put_slot, upd. cbn [m_slots]. rewrite Nat.eqb_refl. cbn [ws]. rewrite top_snoc. apply K.
      + apply Same; [assumption|]. unfold sl, put_slot, upd. cbn [m_slots]. destruct (Nat.eqb_spec j i) as [->|]; [exfalso; apply Te, T, Hj|reflexivity].
    - split; [now apply remove1_nodup|]. intros j Hj. apply Same; [eapply remove1_in; eauto|].
      unfold sl, put_slot, upd. cbn [m_slots]. destruct (Nat.eqb_spec j i) as [->|]; [exfalso; eapply remove1_not; eauto|reflexivity].
    - split; [now apply remove1_nodup|]. intros j Hj. apply Same; [eapply remove1_in; eauto|].
      unfold sl, put_slot, upd. cbn [m_slots]. destruct (Nat.eqb_spec j i) as [->|]; [exfalso; eapply remove1_not; eauto|reflexivity].
    - split; [assumption|]. intros jj Hj. apply Same; [assumption|]. unfold sl, put_slot, upd. cbn [m_slots].
      destruct (Nat.eqb_spec jj j) as [->|]; [reflexivity|]. destruct (Nat.eqb_spec jj i) as [->|]; reflexivity.
    - split; [assumption|]. intros j Hj. pose proof (le_st _ _ _ Le j) as P. unfold sl in *. cbn [m_slots] in *.
      destruct ((capv M tv <=? j) && (j <? n0)); [|split; [now apply T|now left]]. exfalso.
      specialize (T j Hj). destruct P as (l & P). cbn [wfresh ws] in P. destruct (ws (m_slots M j)) as [|m [|m' l']]; [discriminate T| |discriminate P].
      injection P as <- _. discriminate T.
  Qed.

  Record JI c g B : Prop := MkJI {
    j_prog : forall t x, wlookup t (w_run c) = Some x -> lh (fun _ H => H = []) (B t) (wc_prog x);
    j_nd : forall t x, wlookup t (w_run c) = Some x -> NoDup (B t);
    j_lock : forall t x i, wlookup t (w_run c) = Some x -> In i (B t) -> g i = GLock (wc_id x)
  }.

  Lemma step_JI c g f B l c' : world c g f -> JI c g B -> wclient E ro c l -> wstep E c l = WNext c' -> exists g' f' B', world c' g' f' /\ JI c' g' B'.
  Proof.
    intros Wo J Cl St. pose proof Wo as (Si & _ & Hi). pose proof (si_ni _ _ _ _ Si) as N.
    destruct (step_world E ro EOK c g f l c' Wo Cl St) as (g' & f' & Wo' & Ot). pose proof Wo' as (Si' & _ & Hi').
    (* the others *)
    assert (Oth : forall u z, wlookup u (w_run c) = Some z -> (forall k, l <> WStep u k) -> lh (fun _ H => H = []) (B u) (wc_prog z) /\ NoDup (B u) /\ forall i, In i (B u) -> g' i = GLock (wc_id z)).
    { intros u z Lu Nl. destruct (Ot u z Lu) as (_ & _ & Kp). destruct (Kp Nl) as (_ & Sf). split; [eapply (j_prog _ _ _ J); eauto|]. split; [eapply (j_nd _ _ _ J); eauto|].
      intros i Hj. apply Sf. eapply (j_lock _ _ _ J); eauto. }
    assert (Mk : forall B', (forall u z, wlookup u (w_run c') = Some z -> lh (fun _ H => H = []) (B' u) (wc_prog z) /\ NoDup (B' u) /\ forall i, In i (B' u) -> g' i = GLock (wc_id z)) ->
                 exists g' f' B', world c' g' f' /\ JI c' g' B').
    { intros B' H. exists g', f', B'. split; [assumption|]. constructor; intros u z; intros; eapply H; eauto. }
    destruct l as [t o from|t k|t w| |n].
    - simpl in St. destruct (wlookup t (w_run c)) eqn:Lk; [discriminate|]. destruct (fetch o from (w_res c)) as [v|]; [|discriminate]. injection St as <-.
      apply (Mk (fun u => if u =? t then [] else B u)). cbn [w_run]. intros u z. simpl wlookup. destruct (Nat.eqb_spec u t) as [->|Ne].
      + intros [= <-]. cbn [wc_prog]. split; [apply op_lo; apply Cl|]. split; [constructor|intros i []].
      + intros Lu. apply Oth; [assumption|]. intros; discriminate.
    - simpl in St. unfold wstep_thread in St. destruct (wlookup t (w_run c)) as [x|] eqn:Lk; [|discriminate].
      assert (End : w_run c' = wremove t (w_run c) -> exists g' f' B', world c' g' f' /\ JI c' g' B').
      { intros Hr. apply (Mk B). rewrite Hr. intros u z Lu. apply (rem_look _ _ _ _ (ni_nd _ N)) in Lu as [Ne Lu]. apply Oth; [assumption|]. intros k' [= <-]. congruence. }
      assert (Acc : forall a kk y M' tv', wexec E (wc_id x) a k (w_mem c) (w_view c t) = WDone y M' tv' ->
                      (lok (B t) a /\ forall y, lh (fun _ H => H = []) (held (B t) a y) (kk y)) ->
                      c' = wafter t c x (kk y) M' tv' -> exists g' f' B', world c' g' f' /\ JI c' g' B').
      { intros a kk y M' tv' Ex [Lo Lkk] ->. apply (Mk (fun u => if u =? t then held (B t) a y else B u)). intros u z Lu.
        apply (put_look _ _ _ _ _ (ni_nd _ N)) in Lu as [[-> ->]|[Ne Lu]].
        2:{ destruct (Nat.eqb_spec u t); [congruence|]. apply Oth; [assumption|]. intros k' [= <-]. congruence. }
        rewrite Nat.eqb_refl. cbn [wc_prog wc_id]. split; [apply Lkk|].
        destruct (wexec_keeps _ _ _ _ _ _ _ _ (B t) (proj1 (Ot t x Lk)) Ex Lo (j_nd _ _ _ J t x Lk)) as [Nd Ke].
        { intros j Hj. apply (locked_top E ro (w_mem c) g j (si_wi _ _ _ _ Si)). exists (wc_id x). eapply (j_lock _ _ _ J); eauto. }
        split; [exact Nd|]. intros i Hj. destruct (Ke i Hj) as [Tp Was].
        destruct (proj2 (locked_top E ro _ g' i (si_wi _ _ _ _ Si')) Tp) as (id' & Hg).
        destruct (Nat.eq_dec id' (wc_id x)) as [->|Nid]; [assumption|exfalso].
        destruct (h_lock _ _ _ _ Hi' i id' Hg) as (u & z & Lu & Hid & _).
        apply (put_look _ _ _ _ _ (ni_nd _ N)) in Lu as [[-> ->]|[Ne Lu]]; [simpl in Hid; congruence|].
        destruct (Ot u z Lu) as (_ & _ & Kp). destruct (Kp ltac:(intros k' [= <-]; congruence)) as (_ & Sf). rewrite <- Hid in Hg. apply Sf in Hg.
        destruct Was as [Was|Was]; [rewrite (j_lock _ _ _ J t x i Lk Was) in Hg; congruence|]. apply Was. apply (locked_top E ro _ g i (si_wi _ _ _ _ Si)). eauto. }
      pose proof (j_prog _ _ _ J t x Lk) as Px. destruct (wc_prog x) as [r|m|a kk|a again kk] eqn:Hp.
      + apply End. injection St as <-. reflexivity.
      + apply End. injection St as <-. reflexivity.
      + destruct (wexec E (wc_id x) a k (w_mem c) (w_view c t)) as [y M' tv'| |] eqn:Ex; try discriminate. injection St as <-. eapply Acc; eauto.
      + destruct (wexec E (wc_id x) a k (w_mem c) (w_view c t)) as [y M' tv'| |] eqn:Ex; try discriminate. destruct (again y); injection St as <-; [exists g, f, B; auto|]. eapply Acc; eauto.
    - simpl in St. injection St as <-. apply (Mk B). cbn [w_run]. intros u z Lu. apply Oth; [assumption|]. intros; discriminate.
    - simpl in St. destruct (w_run c) eqn:R; [|discriminate]. apply (Mk B). assert (R' : w_run c' = []) by (destruct (latest _ <=? latest _); [injection St as <-; reflexivity|discriminate]).
      rewrite R'. discriminate.
    - simpl in St. destruct (w_run c) eqn:R; [|discriminate]. apply (Mk B).
      assert (R' : w_run c' = []) by (destruct (reserve E _ _ n); injection St as <-; [reflexivity|exact R]). rewrite R'. discriminate.
  Qed.
End WHolding.

Section Exec.
  Context {V : Type} (E : env V) (l0 : list V) (c0 m0 : nat).
  Lemma execution_JI c : wexecution E false l0 c0 m0 c -> exists g f B, world E false c g f /\ JI c g B.
  Proof.
    intros X. pose proof X as (EOK & Ck & Hl & Hw & Re). clear X. induction Re as [|c l c' Re IH Cl St].
    - destruct (execution_world E false l0 c0 m0 (wstart l0 c0 m0)) as (_ & g & f & Wo).
      { split; [assumption|]. split; [assumption|]. split; [assumption|]. split; [assumption|]. constructor. }
      exists g, f, (fun _ => []). split; [assumption|]. constructor; intros t x; discriminate.
    - destruct IH as (g & f & B & Wo & J). eapply step_JI; eauto.
  Qed.
  (** While a call is about to end its access to element [i], a step of another call leaves the value,
      and the number of reads and writes, as they are. *)
  Lemma holder_alone c t x i l c' : wexecution E false l0 c0 m0 c -> wlookup t (w_run c) = Some x ->
    (exists k, wc_prog x = Act (RdEnd i) k) \/ (exists f k, wc_prog x = Act (WrEnd i f) k) ->
    wclient E false c l -> wstep E c l = WNext c' -> (forall k, l <> WStep t k) ->
    ww (m_slots (w_mem c') i) = ww (m_slots (w_mem c) i) /\ wr (m_slots (w_mem c') i) = wr (m_slots (w_mem c) i).
  Proof.
    intros X Lk P Cl St Nl. destruct (execution_JI c X) as (g & f & B & Wo & J).
    destruct (step_world E false (proj1 X) c g f l c' Wo Cl St) as (g' & f' & Wo' & Ot). destruct (Ot t x Lk) as (_ & _ & Kp). destruct (Kp Nl) as (_ & Sf).
    assert (G : g i = GLock (wc_id x)).
    { apply (j_lock _ _ _ J t x i Lk). pose proof (j_prog _ _ _ J t x Lk) as K. destruct P as [(k & P)|(h & k & P)]; rewrite P in K; apply K. }
    destruct Sf as (_ & _ & _ & _ & Sf & _). destruct (Sf i G) as (_ & A & A'). split; [exact A|]. now apply A'.
  Qed.
End Exec.
