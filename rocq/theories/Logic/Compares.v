(** * What a comparison of two vectors finds. *)

From Coq Require Import List Arith Bool Lia.
From Verif.Model Require Import Prog Mem Deps State Elem Vec Excl Machine Reentrant Several.
From Verif Require Import Client Spec Seq Nested Compare.
From Verif.Logic Require Import Inv WP Post Sound Clients Reentry Nesting Project.
Import ListNotations.
Local Arguments agent : simpl never.

Section Order.
  Context {V : Type} (E : env V) (ro nl : bool) (l0 : list V) (c0 m0 : nat).

  Lemma execution_le c t c' : execution E ro nl l0 c0 m0 c -> step E c (LStep t) = Next c' -> le (sh c) (sh c').
  Proof.
    intros X S. destruct (execution_world _ _ _ _ _ _ c X) as (snap & g & [G HB _ _]).
    pose proof (client_disciplined E ro nl l0 m0 c snap g (LStep t) G HB Logic.I ltac:(right; discriminate)) as D.
    simpl in S. unfold step_thread in S. destruct (lookup t (run c)) as [x|] eqn:Lk; [|discriminate].
    destruct (gi_run _ _ _ _ _ _ _ _ G t x Lk) as (O & L & s0 & Vw & Le & W).
    destruct (c_prog x) as [r|m|a k|a again k] eqn:Hp.
    - injection S as <-. apply le_refl.
    - injection S as <-. apply le_refl.
    - simpl in W. assert (Fi : fits E a (sh c)). { destruct a; simpl; auto. eapply D; eauto. }
      destruct (W (sh c) g Le (gi_inv _ _ _ _ _ _ _ _ G) Vw Fi) as (y & s' & l & g' & L' & Ex & I' & Vw' & Gu & Lg & K).
      rewrite Ex in S. injection S as <-. exact (gu_le _ _ _ _ _ Gu).
    - simpl in W. destruct W as [SO W]. assert (Fi : fits E a (sh c)). { destruct a; simpl; auto. destruct SO. }
      destruct (W (sh c) g Le (gi_inv _ _ _ _ _ _ _ _ G) Vw Fi) as [(y & l & Ex & Ag)|(y & s' & l & g' & L' & Ex & Ag & I' & Vw' & Gu & Lg & K)];
        rewrite Ex, Ag in S; injection S as <-; [apply le_refl|]. exact (gu_le _ _ _ _ _ Gu).
  Qed.
  Lemma execution_good c : execution E ro nl l0 c0 m0 c -> good E ro (sh c).
  Proof. intros X. destruct (execution_world _ _ _ _ _ _ c X) as (snap & g & [G _ _ _]). exact (gi_good _ _ _ _ _ _ _ _ G). Qed.

  Lemma rexecution_good r : rexecution E ro nl l0 c0 m0 r -> good E ro (rsh r).
  Proof.
    intros X. destruct (simulation _ _ _ _ _ _ _ X) as [R Sm]. destruct (Sm _ (consistent_self _)) as (c & Xc & Si).
    rewrite <- (sm_sh _ _ _ Si). now apply execution_good.
  Qed.
  Lemma rexecution_le r l r' : rexecution E ro nl l0 c0 m0 r -> rclient E ro nl (length l0) r l ->
    match l with NLClear | NLReserve _ => False | _ => True end -> rstep E r l = RNext r' -> le (rsh r) (rsh r').
  Proof.
    intros X P K S. assert (X' : rexecution E ro nl l0 c0 m0 r') by (eapply rexecution_step; eauto).
    destruct (simulation _ _ _ _ _ _ _ X) as [R Sm].
    assert (Co : consistent (answered (answers r')) (answers r')) by apply consistent_self.
    destruct (log_grows _ _ _ _ S) as [z Q]. assert (Co' := Co). rewrite Q in Co' at 2. apply consistent_app in Co'.
    destruct (Sm _ Co') as (c & Xc & Si). pose proof (sim_step _ _ _ _ _ _ R Si Co S) as H.
    destruct l as [t o|t|t a| |n]; cbn [flat_label] in H; try contradiction.
    - destruct H as (c' & Sc & Si'). rewrite <- (sm_sh _ _ _ Si), <- (sm_sh _ _ _ Si'). simpl in Sc.
      destruct (lookup _ (run c)); [discriminate|]. destruct (has_grant _ (given c)); [|discriminate]. injection Sc as <-. apply le_refl.
    - destruct H as (c' & Sc & Si'). rewrite <- (sm_sh _ _ _ Si), <- (sm_sh _ _ _ Si'). eapply execution_le; eauto.
    - rewrite <- (sm_sh _ _ _ Si), <- (sm_sh _ _ _ H). apply le_refl.
  Qed.
End Order.

Section Whole.
  Context {V : Type} (E : env V) (l0 : nat -> list V) (c0 m0 : nat -> nat).
  Notation execution c := (mexecution E EqWait l0 c0 m0 c).
  Notation later c c' := (later E EqWait l0 c c').
  Implicit Types (c : mcfg V) (w i : nat) (s : shared V).

  Lemma later_trans c1 c2 c3 : later c1 c2 -> later c2 c3 -> later c1 c3.
  Proof. intros A B. unfold Compare.later in *. induction B as [|c l c' B IH P S]; [assumption|]. econstructor; eauto. Qed.
  Lemma execution_later c c' : execution c -> later c c' -> execution c'.
  Proof. intros (A & B & R) L. split; [assumption|]. split; [assumption|]. eapply later_trans; eauto. Qed.
  Lemma mexec_calls c : execution c -> calls c.
  Proof. intros (_ & _ & R). eapply calls_reach; eauto. Qed.

  Lemma msim_start w : length (l0 w) < wmod E -> msim E l0 w (mstart l0 c0 m0) (rstart (l0 w) (c0 w) (m0 w)).
  Proof. intros H. split; simpl; [reflexivity|intros t; reflexivity|contradiction|constructor|assumption]. Qed.
  Lemma quiet_reach w r r' : rreach E (quiet E l0 w) r r' -> rreach E (rclient E false false (length (l0 w))) r r'.
  Proof. induction 1 as [|r1 l r2 R IH [P _] S]; [constructor|]. econstructor; eauto. Qed.
  Lemma msim_reach w c : execution c -> exists r, rexecution E false false (l0 w) (c0 w) (m0 w) r /\ msim E l0 w c r.
  Proof.
    intros (EO & CO & R). destruct (CO w) as (C1 & C2 & C3). induction R as [|c l c' R IH P S].
    - exists (rstart (l0 w) (c0 w) (m0 w)). split; [|now apply msim_start]. repeat (split; [assumption|]). constructor.
    - destruct IH as (r & X & M). assert (C : calls c) by (eapply calls_reach; eauto).
      destruct (msim_step E l0 w c l c' r C M P S) as (r' & R' & M'). exists r'. split; [|assumption].
      destruct X as (_ & _ & _ & _ & X). repeat (split; [assumption|]). apply quiet_reach in R'. clear - X R'. induction R'; [assumption|]. econstructor; eauto.
  Qed.
  Lemma mexec_good w c : execution c -> good E false (msh c w).
  Proof. intros X. destruct (msim_reach w c X) as (r & Xr & M). rewrite <- (ms_sh _ _ _ _ _ M). eapply rexecution_good; eauto. Qed.
  Lemma mexec_le w c l c' : execution c -> mclient E l0 c l -> mstep E EqWait c l = MNext c' -> le (msh c w) (msh c' w).
  Proof.
    intros X P S. destruct (msim_reach w c X) as (r & Xr & M). destruct (msim_step E l0 w c l c' r (mexec_calls _ X) M P S) as (r' & R' & M').
    rewrite <- (ms_sh _ _ _ _ _ M), <- (ms_sh _ _ _ _ _ M'). clear - Xr R'. induction R' as [|r1 l r2 R IH [P K] S]; [apply le_refl|].
    eapply le_trans; [exact IH|]. eapply rexecution_le; [|exact P|exact K|exact S]. apply quiet_reach in R.
    apply (rexecution_trans _ _ _ _ _ _ _ _ Xr R).
  Qed.
  Lemma later_le w c c' : execution c -> later c c' -> le (msh c w) (msh c' w).
  Proof.
    intros X L. induction L as [|c' l c'' L IH P S]; [apply le_refl|]. eapply le_trans; [exact IH|]. eapply mexec_le; eauto. eapply execution_later; eauto.
  Qed.

  (** ** Facts about single states *)
  Lemma good_read s i A : good E false s -> i < cap s -> In A (srd (slots s i)) -> sst (slots s i) = RESERVED /\ exists v, sval (slots s i) = Some v.
  Proof.
    intros [g G] Hi HA. pose proof (i_slot _ _ _ _ G i) as S. assert (Some_ : sval (slots s i) <> None -> exists v, sval (slots s i) = Some v)
      by (destruct (sval (slots s i)) as [v|]; [eauto|contradiction]).
    destruct (g i) as [|t|t|t v| | |t [| |]]; simpl in S; unfold rdok in S.
    - rewrite (S Hi) in HA. destruct HA.
    - rewrite (S Hi) in HA. destruct HA.
    - destruct S as (_ & _ & _ & S). rewrite S in HA. destruct HA.
    - destruct S as (_ & S). rewrite S in HA. destruct HA.
    - rewrite (S Hi) in HA. destruct HA.
    - destruct S as (_ & _ & _ & _ & [S|S]); [discriminate|]. rewrite S in HA. destruct HA.
    - destruct S as (_ & _ & _ & _ & [S|S]); [discriminate|]. rewrite S in HA. destruct HA.
    - destruct S as (_ & S1 & S2 & _). auto.
    - destruct S as (_ & S1 & S2 & _). auto.
  Qed.
  Lemma good_filled s i : good E false s -> filledp s i -> exists v, sval (slots s i) = Some v.
  Proof.
    intros [g G] F. apply (full_filled _ _ _ _ _ G) in F. pose proof (i_slot _ _ _ _ G i) as S.
    assert (Some_ : sval (slots s i) <> None -> exists v, sval (slots s i) = Some v) by (destruct (sval (slots s i)) as [v|]; [eauto|contradiction]).
    destruct (g i) as [| | | | | |t [| |]]; simpl in F, S; try contradiction; apply Some_, S.
  Qed.
  Lemma good_wrtn s i : good E false s -> i < wrtn s -> filledp s i.
  Proof. intros [g G] H. apply (full_filled _ _ _ _ _ G). now apply (i_wrtn _ _ _ _ G). Qed.

  Definition held s A i v : Prop := i < cap s /\ In A (srd (slots s i)) /\ sval (slots s i) = Some v.
  Lemma in_remove1 A B l : A <> B -> In B l -> In B (remove1 A l).
  Proof.
    intros N. induction l as [|x l IH]; simpl; [auto|]. intros H. destruct (Nat.eqb_spec A x) as [<-|]; simpl; destruct H as [H|H]; auto. contradiction.
  Qed.
  Lemma nil_in (l : list nat) B : is_nil l = true -> In B l -> False.
  Proof. destruct l; [intros _ []|discriminate]. Qed.
  Lemma exec_held A B a s y s' l i v : exec E A a s = Done y s' l -> A <> B -> cap s <= cap s' -> held s B i v -> held s' B i v.
  Proof.
    intros Ex N Lc (Hi & HB & Hv). split; [lia|]. clear Lc.
    destruct a; cbn [exec] in Ex; unfold with_slot in Ex;
      repeat match type of Ex with
             | (if ?b then _ else _) = _ => let Q := fresh "Q" in destruct b eqn:Q; try discriminate
             | match ?e with _ => _ end = _ => let Q := fresh "Q" in destruct e eqn:Q; try discriminate
             end; try discriminate; injection Ex as <- <- <-; cbn [slots set_slot]; auto.
    all: try solve [unfold upd; destruct (Nat.eqb_spec i i0) as [->|]; cbn [srd sval]; auto; (split; [assumption|congruence])].
    all: rewrite ?andb_true_iff in *.
    - unfold upd; destruct (Nat.eqb_spec i i0) as [->|]; cbn [srd sval]; auto. split; [now right|assumption].
    - unfold upd; destruct (Nat.eqb_spec i i0) as [->|]; cbn [srd sval]; auto. split; [now apply in_remove1|congruence].
    - unfold upd; destruct (Nat.eqb_spec i i0) as [->|]; cbn [srd sval]; auto. exfalso. eapply nil_in; [|exact HB]. tauto.
    - unfold upd; destruct (Nat.eqb_spec i j) as [->|]; [exfalso; eapply nil_in; [|exact HB]; tauto|].
      destruct (Nat.eqb_spec i i0) as [->|]; cbn [srd sval]; auto. exfalso. eapply nil_in; [|exact HB]. tauto.
    - unfold upd; destruct (Nat.eqb_spec i i0) as [->|]; cbn [srd sval]; auto. exfalso. eapply nil_in; [|exact HB]. tauto.
    - unfold fill_fresh. destruct (Nat.leb_spec (cap s) i); [lia|]. simpl. auto.
  Qed.

  (** ** The thread that compares *)
  Section Thread.
    Context (t id : nat) (o : mop V) (cb : mcfg V).
    Definition mine (l : mlabel V) : Prop := match l with MLInv u _ | MLStep u => u = t end.
    Definition rest c c' : Prop := mreach E EqWait (fun c l => mclient E l0 c l /\ ~ mine l) c c'.
    Lemma rest_later c c' : rest c c' -> later c c'.
    Proof. induction 1 as [|c1 l c2 R IH [P _] S]; [constructor|]. econstructor; eauto. Qed.
    Lemma rest_held c c' w d i v : execution c -> rest c c' -> held (msh c w) (agent t d) i v -> held (msh c' w) (agent t d) i v.
    Proof.
      intros X R H. induction R as [|c1 l c2 R IH [P N] S]; [assumption|].
      assert (X1 : execution c1) by (eapply execution_later; [exact X|now apply rest_later]).
      pose proof (mexec_le w _ _ _ X1 P S) as Le. destruct l as [u q|u]; simpl in N, S.
      - destruct (mrun c1 u); [discriminate|]. destruct (mhas (mgiven c1) q); [|discriminate]. injection S as <-. exact IH.
      - destruct (mrun c1 u) as [x|]; [|discriminate]. destruct (m_prog x) as [r|m|v' d' a k|v' d' a ag k].
        + injection S as <-. exact IH.
        + injection S as <-. exact IH.
        + destruct (exec E (agent u d') a (msh c1 v')) as [y s l|f] eqn:Ex; [|discriminate]. injection S as <-. cbn [mafter msh] in *. unfold upd in *.
          destruct (Nat.eqb_spec w v') as [->|]; [|exact IH]. eapply exec_held; [exact Ex| |apply Le|exact IH]. intros Q. apply agent_inj in Q as [Q _]. contradiction.
        + destruct (exec E (agent u d') a (msh c1 v')) as [y s l|f] eqn:Ex; [|discriminate]. destruct (ag y); injection S as <-; [exact IH|]. cbn [mafter msh] in *. unfold upd in *.
          destruct (Nat.eqb_spec w v') as [->|]; [|exact IH]. eapply exec_held; [exact Ex| |apply Le|exact IH]. intros Q. apply agent_inj in Q as [Q _]. contradiction.
    Qed.

    (** One access of the thread, and what holds afterwards. *)
    Record moved c (w d : nat) (a : act V) (y : res a) c1 c2 : Prop := {
      mv_x1 : execution c1; mv_x2 : execution c2; mv_l12 : later c1 c2; mv_rest : rest c c1; mv_l2 : later c c2; mv_b : later cb c2;
      mv_ex : exists s l, exec E (agent t d) a (msh c1 w) = Done y s l /\ msh c2 = upd (msh c1) w s;
      mv_open : mopen (mhist c2) id t o }.
    Fixpoint wq (Q : ret V -> mcfg V -> Prop) (p : mprog V (ret V)) c : Prop :=
      match p with
      | QRet r => forall c', execution c' -> later cb c' -> rest c c' -> Q r c'
      | QPan _ => False
      | QAct w d a k => forall c1 c2 y, moved c w d a y c1 c2 -> wq Q (k y) c2
      | QSpin w d a again k => forall c1 c2 y, moved c w d a y c1 c2 -> again y = false -> wq Q (k y) c2
      end.

    Lemma wq_on Q {A B} w (p : prog V A) (f : A -> prog V B) (K : B -> mprog V (ret V)) c :
      wq Q (qbind (on w p) (fun x => qbind (on w (f x)) K)) c -> wq Q (qbind (on w (bind p f)) K) c.
    Proof.
      revert c. induction p as [r|m|a k IH|a ag k IH]; intros c H; cbn [bind on qbind wq] in *; auto.
      - intros c1 c2 y M. apply IH. eauto.
      - intros c1 c2 y M Ag. apply IH. eauto.
    Qed.

    Definition has c w i : Prop := filledp (msh c w) i.
    Lemma has_later c c' w i : execution c -> later c c' -> has c w i -> has c' w i.
    Proof. intros X L. apply (le_fill _ _ (later_le w _ _ X L)). Qed.
    Lemma has_holds c w i : execution c -> has c w i -> exists v, holds c w i v.
    Proof. intros X [H1 H2]. destruct (good_filled _ _ (mexec_good w c X) (conj H1 H2)) as (v & Hv). exists v. repeat split; assumption. Qed.

    Lemma wq_count Q w n : forall (K : nat -> mprog V (ret V)) i c, execution c ->
      (forall m c', execution c' -> later c c' -> (forall k, i <= k < i + m -> has c' w k) -> wq Q (K m) c') -> wq Q (qbind (on w (count_pushed i n)) K) c.
    Proof.
      induction n as [|n IH]; intros K i c X H; cbn [count_pushed].
      - cbn [on qbind]. apply H; [assumption|constructor|intros; lia].
      - unfold is_some_with_order. apply wq_on. apply wq_on. cbn [doo on qbind wq]. intros c1 c2 y M.
        destruct (mv_ex _ _ _ _ _ _ _ M) as (s & l & Ex & Sh). cbn [exec] in Ex. unfold with_slot in Ex. destruct (Nat.ltb_spec i (cap (msh c1 w))) as [Hi|]; [|discriminate].
        injection Ex as <- <- <-. destruct (sst (slots (msh c1 w) i)) eqn:St; cbn [st_eqb].
        + cbn [on qbind]. apply H; [apply M|apply M|intros; lia].
        + cbn [on qbind]. apply H; [apply M|apply M|intros; lia].
        + apply wq_on. apply IH; [apply M|]. intros m c' X' L' Hm. cbn [on qbind]. apply H; [assumption|eapply later_trans; [apply M|assumption]|].
          intros k Hk. destruct (Nat.eq_dec k i) as [->|]; [|apply Hm; lia]. apply (has_later c2); [apply M|assumption|].
          unfold has. rewrite Sh, upd_same. split; [assumption|]. rewrite St. discriminate.
    Qed.

    Lemma later_refl c : later c c.
    Proof. constructor. Qed.
    Lemma moved_has c w d a y c1 c2 w' i : moved c w d a y c1 c2 -> execution c -> has c w' i -> has c2 w' i.
    Proof. intros M X. apply has_later; [assumption|apply M]. Qed.
    Lemma moved_held c w d a y c1 c2 w' d' i v : execution c -> moved c w' d' a y c1 c2 -> (w = w' -> d <> d') ->
      held (msh c w) (agent t d) i v -> held (msh c2 w) (agent t d) i v.
    Proof.
      intros X M N H. assert (H1 : held (msh c1 w) (agent t d) i v) by (eapply rest_held; eauto; apply M).
      pose proof (le_cap _ _ (later_le w _ _ (mv_x1 _ _ _ _ _ _ _ M) (mv_l12 _ _ _ _ _ _ _ M))) as Lc.
      destruct (mv_ex _ _ _ _ _ _ _ M) as (s & l & Ex & Sh). rewrite Sh in *. unfold upd in *. destruct (Nat.eqb_spec w w') as [->|]; [|assumption].
      eapply exec_held; [exact Ex| |exact Lc|exact H1]. intros Q. apply agent_inj in Q as [_ Q]. symmetry in Q. now apply N.
    Qed.

    Lemma wq_iter Q w (K : list nat -> mprog V (ret V)) c : execution c ->
      (forall n c', execution c' -> later c c' -> wrtn (msh c w) <= n -> (forall i, i < n -> has c' w i) -> wq Q (K (seq 0 n)) c') ->
      wq Q (qbind (on w vec_iter) K) c.
    Proof.
      intros X H. unfold vec_iter. apply wq_on. unfold vec_len. apply wq_on. cbn [doo on qbind wq]. intros c1 c2 len M1.
      assert (L1 : wrtn (msh c w) <= len /\ forall i, i < len -> has c2 w i).
      { destruct (mv_ex _ _ _ _ _ _ _ M1) as (s & l & Ex & Sh). cbn [exec] in Ex. injection Ex as <- <- _. split.
        - apply (le_wrtn _ _ (later_le w _ _ X (rest_later _ _ (mv_rest _ _ _ _ _ _ _ M1)))).
        - intros i Hi. unfold has. rewrite Sh, upd_same. apply good_wrtn; [apply mexec_good, M1|assumption]. }
      destruct L1 as [L1 F1]. apply wq_on. unfold core_capacity. cbn [doo on qbind wq]. intros c3 c4 cp M2. apply wq_on. cbn [doo on qbind wq]. intros c5 c6 rs M3.
      apply wq_on. unfold core_iter_over_range. apply wq_on. cbn [doo on qbind wq]. intros c7 c8 [] M4.
      assert (X2 : execution c2) by apply M1. assert (X4 : execution c4) by apply M2. assert (X6 : execution c6) by apply M3. assert (X8 : execution c8) by apply M4.
      assert (L28 : later c2 c8) by (eapply later_trans; [apply M2|]; eapply later_trans; [apply M3|apply M4]).
      assert (L8 : later c c8) by (eapply later_trans; [apply M1|exact L28]).
      apply wq_on. apply wq_count; [assumption|]. intros m c9 X9 L9 F9. apply wq_on. cbn [doo on qbind wq]. intros c10 c11 y5 M5.
      unfold core_iter, core_iter_over_range. apply wq_on. cbn [doo on qbind wq]. intros c12 c13 [] M6. rewrite Nat.sub_0_r.
      assert (L913 : later c9 c13). { eapply later_trans; [apply M5|apply M6]. }
      apply H; [apply M6|eapply later_trans; [exact L8|eapply later_trans; [exact L9|exact L913]]|lia|].
      intros i Hi. apply (has_later c9); [assumption|assumption|]. destruct (Nat.lt_ge_cases i len) as [Lt|Ge].
      - apply (has_later c2); [assumption|eapply later_trans; eassumption|auto].
      - apply F9. lia.
    Qed.

    Lemma wq_side Q a (K : list nat -> mprog V (ret V)) c : execution c -> (forall w x, a = Part w x -> forall i, sl_a x <= i < sl_a x + sl_len x -> has c w i) ->
      (forall l c', execution c' -> later c c' -> (forall d, later c' d -> covers a c d l) -> (forall i, In i l -> has c' (vec_of a) i) -> wq Q (K l) c') ->
      wq Q (qbind (side_iter a) K) c.
    Proof.
      intros X Hx H. destruct a as [w|w x]; cbn [side_iter vec_of] in *.
      - apply wq_iter; [assumption|]. intros n c' X' L Hn F. apply H; auto.
        + intros d Ld. exists n. split; [reflexivity|]. split; [assumption|]. intros i Hi.
          apply has_holds; [eapply execution_later; eauto|]. apply (has_later c'); auto.
        + intros i Hi. apply in_seq in Hi. apply F. lia.
      - unfold slice_iter, core_iter_over_range. apply wq_on. cbn [doo on qbind wq]. intros c1 c2 [] M.
        replace (sl_a x + sl_len x - sl_a x) with (sl_len x) by lia. apply H; [apply M|apply M|reflexivity|].
        intros i Hi. apply in_seq in Hi. apply (has_later c); [assumption|apply M|]. eapply Hx; [reflexivity|lia].
    Qed.

    (** Getting the handle of an element that has a value. *)
    Lemma wait_result c w d i c1 c2 y : execution c -> has c w i -> moved c w d (CasSt i SOME RESERVED) y c1 c2 ->
      negb (fst y) && st_eqb (snd y) RESERVED = false -> fst y = true /\ sst (slots (msh c1 w) i) = SOME.
    Proof.
      intros X F M Ag. destruct (mv_ex _ _ _ _ _ _ _ M) as (s & l & Ex & _). cbn [exec] in Ex. unfold with_slot in Ex.
      assert (F1 : has c1 w i) by (apply (has_later c); auto; apply rest_later, M). destruct F1 as [Hi F1].
      destruct (Nat.ltb_spec i (cap (msh c1 w))); [|lia]. destruct (sst (slots (msh c1 w) i)); simpl in Ex; injection Ex as <- _ _; simpl in Ag |- *; try discriminate; [contradiction|auto].
    Qed.
    Lemma read_begins c w d i c1 c2 y : moved c w d (RdBeg i) y c1 c2 -> exists v, held (msh c2 w) (agent t d) i v.
    Proof.
      intros M. destruct (mv_ex _ _ _ _ _ _ _ M) as (s & l & Ex & Sh). cbn [exec] in Ex. unfold with_slot in Ex.
      destruct (Nat.ltb_spec i (cap (msh c1 w))); [|discriminate]. destruct (is_none (swr (slots (msh c1 w) i))); [|discriminate]. injection Ex as _ <- _.
      assert (A : i < cap (msh c2 w) /\ In (agent t d) (srd (slots (msh c2 w) i))).
      { rewrite Sh, upd_same. unfold set_slot. cbn [cap slots]. rewrite upd_same. split; [assumption|]. now left. }
      destruct A as [A1 A2]. destruct (good_read _ _ _ (mexec_good w c2 (mv_x2 _ _ _ _ _ _ _ M)) A1 A2) as (_ & v & Hv). exists v. repeat split; assumption.
    Qed.
    Lemma read_ends c w d i c1 c2 (y : V) v : execution c -> held (msh c w) (agent t d) i v -> moved c w d (RdEnd i) y c1 c2 -> y = v.
    Proof.
      intros X H M. assert (H1 : held (msh c1 w) (agent t d) i v) by (eapply rest_held; eauto; apply M). destruct H1 as (Hi & _ & Hv).
      destruct (mv_ex _ _ _ _ _ _ _ M) as (s & l & Ex & Sh). cbn [exec] in Ex. unfold with_slot in Ex.
      destruct (Nat.ltb_spec i (cap (msh c1 w))); [|discriminate]. rewrite Hv in Ex. destruct (is_none (swr (slots (msh c1 w) i))); [|discriminate]. injection Ex as <- _ _. reflexivity.
    Qed.
    Lemma held_holds c w d i v : execution c -> held (msh c w) (agent t d) i v -> holds c w i v.
    Proof.
      intros X (Hi & HA & Hv). destruct (good_read _ _ _ (mexec_good w c X) Hi HA) as (S & _). repeat split; auto. rewrite S. discriminate.
    Qed.

    Lemma wq_option Q w i w' j (K : bool -> mprog V (ret V)) c : execution c -> has c w i -> has c w' j ->
      (forall x y c', execution c' -> later c c' -> later cb c' -> (w = w' -> i <> j) -> met E EqWait l0 cb c' id t o w i x w' j y -> wq Q (K (eqv E x y)) c') ->
      wq Q (qbind (option_eq E EqWait w i w' j) K) c.
    Proof.
      intros X Fi Fj H. unfold option_eq, q_get, q_wait, q_drop, qdo. cbn [qbind wq]. intros c1 c2 [b st] M1 Ag1.
      destruct (wait_result _ _ _ _ _ _ _ X Fi M1 Ag1) as [B _]. cbn [fst] in B |- *. subst b.
      assert (X2 : execution c2) by apply M1. cbn [qbind wq]. intros c3 c4 [] M2. assert (X4 : execution c4) by apply M2.
      destruct (read_begins _ _ _ _ _ _ _ M2) as (x & Hx). cbn [qbind wq]. intros c5 c6 [b st'] M3 Ag3. assert (X6 : execution c6) by apply M3.
      assert (D : w = w' -> 0 <> second w w') by (intros ->; unfold second; rewrite Nat.eqb_refl; discriminate).
      assert (Fj4 : has c4 w' j) by (apply (has_later c); auto; eapply later_trans; [apply M1|apply M2]).
      destruct (wait_result _ _ _ _ _ _ _ X4 Fj4 M3 Ag3) as [B Sj]. cbn [fst] in B |- *. subst b.
      assert (Ne : w = w' -> i <> j).
      { intros <- <-. assert (H5 : held (msh c5 w) (agent t 0) i x) by (eapply rest_held; [exact X4|apply M3|exact Hx]). destruct H5 as (Hi & HA & _).
        destruct (good_read _ _ _ (mexec_good w c5 (mv_x1 _ _ _ _ _ _ _ M3)) Hi HA) as (S & _). congruence. }
      assert (Hx6 : held (msh c6 w) (agent t 0) i x) by (eapply (moved_held c4); [exact X4|exact M3|exact D|exact Hx]).
      cbn [qbind wq]. intros c7 c8 [] M4. assert (X8 : execution c8) by apply M4. destruct (read_begins _ _ _ _ _ _ _ M4) as (y & Hy).
      assert (Hx8 : held (msh c8 w) (agent t 0) i x) by (eapply (moved_held c6); [exact X6|exact M4|exact D|exact Hx6]).
      cbn [qbind wq]. intros c9 c10 y' M5. assert (X10 : execution c10) by apply M5. pose proof (read_ends _ _ _ _ _ _ _ _ X8 Hy M5). subst y'.
      assert (Hx10 : held (msh c10 w) (agent t 0) i x) by (eapply (moved_held c8); [exact X8|exact M5|exact D|exact Hx8]).
      cbn [qbind wq]. intros c11 c12 [] M6. assert (X12 : execution c12) by apply M6.
      assert (Hx12 : held (msh c12 w) (agent t 0) i x) by (eapply (moved_held c10); [exact X10|exact M6|exact D|exact Hx10]).
      cbn [qbind wq]. intros c13 c14 x' M7. assert (X14 : execution c14) by apply M7. pose proof (read_ends _ _ _ _ _ _ _ _ X12 Hx12 M7). subst x'.
      cbn [qbind wq]. intros c15 c16 [] M8. cbn [qbind]. apply H; [apply M8| |apply M8|assumption|].
      - eapply later_trans; [apply M1|]. eapply later_trans; [apply M2|]. eapply later_trans; [apply M3|]. eapply later_trans; [apply M4|].
        eapply later_trans; [apply M5|]. eapply later_trans; [apply M6|]. eapply later_trans; [apply M7|apply M8].
      - exists c8. split; [apply M4|]. split; [|split; [apply M4|split; eapply held_holds; eassumption]].
        eapply later_trans; [apply M5|]. eapply later_trans; [apply M6|]. eapply later_trans; [apply M7|apply M8].
    Qed.

    Lemma met_later c c' w i x w' j y : later c c' -> met E EqWait l0 cb c id t o w i x w' j y -> met E EqWait l0 cb c' id t o w i x w' j y.
    Proof. intros L (d & L1 & L2 & R). exists d. split; [assumption|]. split; [eapply later_trans; eassumption|assumption]. Qed.

    (** The pairs that were compared before the comparison ended with [b]. *)
    Definition pair_is (b : bool) c w w' i j : Prop := exists x y, met E EqWait l0 cb c id t o w i x w' j y /\ eqv E x y = b.
    Fixpoint verdict (b : bool) c w w' (l l' : list nat) : Prop :=
      match l, l' with
      | i :: l1, j :: l1' => pair_is false c w w' i j /\ b = false \/ pair_is true c w w' i j /\ verdict b c w w' l1 l1'
      | [], [] => b = true
      | _, _ => b = false
      end.
    Lemma verdict_later b c c' w w' : later c c' -> forall l l', verdict b c w w' l l' -> verdict b c' w w' l l'.
    Proof.
      intros L. induction l as [|i l IH]; intros [|j l']; simpl; auto.
      intros [[(x & y & M & Q) Hb]|[(x & y & M & Q) O]]; [left; split; [|assumption]|right; split; [|auto]]; exists x, y; (split; [eapply met_later; eassumption|assumption]).
    Qed.
    Lemma wq_elems Q w w' (K : bool -> mprog V (ret V)) : forall l l' c, execution c -> later cb c -> (forall i, In i l -> has c w i) -> (forall j, In j l' -> has c w' j) ->
      (forall b c', execution c' -> later c c' -> later cb c' -> verdict b c' w w' l l' -> wq Q (K b) c') -> wq Q (qbind (eq_elem_iters E EqWait w w' l l') K) c.
    Proof.
      induction l as [|i l IH]; intros [|j l'] c X Lb F F' H; cbn [eq_elem_iters qbind]; try (apply H; [assumption|apply later_refl|assumption|reflexivity]).
      assert (As : forall (p : mprog V bool) f c, wq Q (qbind p (fun b => qbind (f b) K)) c -> wq Q (qbind (qbind p f) K) c).
      { clear. induction p as [r|m|w d a k IH|w d a ag k IH]; intros f c H; cbn [qbind wq] in *; eauto. }
      apply As. apply wq_option; [assumption|apply F; now left|apply F'; now left|]. intros x y c' X' L Lb' Ne Mt. destruct (eqv E x y) eqn:Q1.
      - apply IH; [assumption|assumption|intros z Hz; apply (has_later c); auto; apply F; now right|intros z Hz; apply (has_later c); auto; apply F'; now right|].
        intros b c2 X2 L2 Lb2 O. apply H; [assumption|eapply later_trans; eassumption|assumption|]. right. split; [|assumption]. exists x, y. split; [exact (met_later c' c2 _ _ _ _ _ _ L2 Mt)|assumption].
      - cbn [qbind]. apply H; [assumption|assumption|assumption|]. left. split; [|reflexivity]. exists x, y. auto.
    Qed.
    (** An element against itself. *)
    Lemma wq_self Q w i (K : bool -> mprog V (ret V)) c : execution c -> has c w i -> wq Q (qbind (option_eq E EqWait w i w i) K) c.
    Proof. intros X F. apply wq_option; auto. intros x y c' _ _ _ N. now destruct N. Qed.

    (** ** From the call to its end *)
    Lemma rest_trans c1 c2 c3 : rest c1 c2 -> rest c2 c3 -> rest c1 c3.
    Proof. intros A B. unfold rest in *. induction B as [|c l c' B IH P S]; [assumption|]. econstructor; eauto. Qed.
    Lemma moved_rest c c' w d a y c1 c2 : rest c c' -> moved c' w d a y c1 c2 -> moved c w d a y c1 c2.
    Proof.
      intros R M. destruct M as [A1 A2 A3 A4 A5 A6 A7 A8]. constructor; auto; [eapply rest_trans; eassumption|].
      eapply later_trans; [apply rest_later; exact R|assumption].
    Qed.
    Lemma wq_rest Q p c c' : rest c c' -> wq Q p c -> wq Q p c'.
    Proof.
      intros R. destruct p as [r|m|w d a k|w d a ag k]; cbn [wq]; auto.
      - intros H c2 X L R2. apply H; auto. eapply rest_trans; eassumption.
      - intros H c1 c2 y M. apply (H c1). eapply moved_rest; eassumption.
      - intros H c1 c2 y M. apply (H c1). eapply moved_rest; eassumption.
    Qed.

    Definition track (Q : ret V -> mcfg V -> Prop) c : Prop :=
      (exists x, mrun c t = Some x /\ m_id x = id /\ m_op x = o /\ wq Q (m_prog x) c) \/
      (exists r c', later cb c' /\ later c' c /\ Q r c' /\ In (MRet id t r) (mhist c)) /\ mdone (mhist c) id = true /\
      (forall u r r', In (MRet id t r) (mhist c) -> In (MRet id u r') (mhist c) -> r' = r) /\ forall u m, ~ In (MPan id u m) (mhist c).

    Lemma track_step Q c l c' : execution c -> later cb c -> track Q c -> mclient E l0 c l -> mstep E EqWait c l = MNext c' -> track Q c'.
    Proof.
      intros X Lb T P S. pose proof (mexec_calls _ X) as C. assert (X' : execution c') by (eapply execution_later; [exact X|]; econstructor; [constructor|exact P|exact S]).
      assert (L1 : later c c') by (econstructor; [constructor|exact P|exact S]).
      assert (Lb' : later cb c') by (eapply later_trans; eassumption).
      assert (Own : mine l \/ ~ mine l) by (destruct l as [u q|u]; simpl; destruct (Nat.eq_dec u t); auto).
      destruct T as [(x & Rx & Ix & Ox & Wx)|((r & d & D1 & D2 & D3 & D4) & Dn & Un & NP)].
      - destruct Own as [Own|Own].
        + destruct l as [u q|u]; simpl in Own; subst u; cbn [mstep] in S; rewrite Rx in S; [discriminate|].
          pose proof (ca_open _ C _ _ Rx) as Op. pose proof (ca_open _ (mexec_calls _ X') t) as Op'.
          destruct (m_prog x) as [r|m|w d a k|w d a ag k] eqn:Pr; cbn [wq] in Wx.
          * right. assert (Qr : Q r c) by (apply Wx; [assumption|assumption|constructor]). injection S as <-. rewrite Ix in *. cbn [mhist].
            assert (None_ : forall u r, ~ In (MRet id u r) (mhist c)).
            { intros u r' H. destruct Op as [_ Op]. unfold mdone in Op. assert (T : existsb (is_mend id) (mhist c) = true) by (apply existsb_exists; exists (MRet id u r'); split; [assumption|simpl; apply Nat.eqb_refl]). congruence. }
            assert (NoneP : forall u r, ~ In (MPan id u r) (mhist c)).
            { intros u r' H. destruct Op as [_ Op]. unfold mdone in Op. assert (T : existsb (is_mend id) (mhist c) = true) by (apply existsb_exists; exists (MPan id u r'); split; [assumption|simpl; apply Nat.eqb_refl]). congruence. }
            split; [|split; [|split]].
            -- exists r, c. split; [assumption|]. split; [assumption|]. split; [assumption|]. apply in_or_app. right. now left.
            -- rewrite mdone_app. simpl. rewrite Nat.eqb_refl. now rewrite orb_true_r.
            -- intros u r1 r2 H1 H2. apply in_app_or in H1 as [H1|[H1|[]]]; [now apply None_ in H1|]. apply in_app_or in H2 as [H2|[H2|[]]]; [now apply None_ in H2|]. congruence.
            -- intros u m H. apply in_app_or in H as [H|[H|[]]]; [now apply NoneP in H|discriminate].
          * contradiction.
          * destruct (exec E (agent t d) a (msh c w)) as [y s l|f] eqn:Ex; [|discriminate]. injection S as <-. left.
            exists (MCall (m_id x) (m_op x) (k y)). cbn [mafter mrun m_id m_op m_prog]. split; [now rewrite upd_same|]. split; [assumption|]. split; [assumption|].
            apply (Wx c). constructor; auto; [constructor| |].
            -- exists s, l. split; [assumption|reflexivity].
            -- specialize (Op' (MCall (m_id x) (m_op x) (k y))). cbn [mafter mrun m_id m_op] in Op'. rewrite upd_same, Ix, Ox in Op'. exact (Op' eq_refl).
          * destruct (exec E (agent t d) a (msh c w)) as [y s l|f] eqn:Ex; [|discriminate]. destruct (ag y) eqn:Ag; injection S as <-.
            -- left. exists x. rewrite Pr. auto.
            -- left. exists (MCall (m_id x) (m_op x) (k y)). cbn [mafter mrun m_id m_op m_prog]. split; [now rewrite upd_same|]. split; [assumption|]. split; [assumption|].
               apply (Wx c); [|assumption]. constructor; auto; [constructor| |].
               ++ exists s, l. split; [assumption|reflexivity].
               ++ specialize (Op' (MCall (m_id x) (m_op x) (k y))). cbn [mafter mrun m_id m_op] in Op'. rewrite upd_same, Ix, Ox in Op'. exact (Op' eq_refl).
        + left. exists x. split; [|split; [assumption|split; [assumption|]]].
          * destruct l as [u q|u]; simpl in Own; cbn [mstep] in S; (destruct (mrun c u) as [z|] eqn:Z; [|try discriminate]); try discriminate.
            -- destruct (mhas (mgiven c) q); [|discriminate]. injection S as <-. cbn [mrun]. rewrite upd_other by auto. assumption.
            -- destruct (m_prog z) as [r|m|w d a k|w d a ag k].
               ++ injection S as <-. cbn [mrun]. rewrite upd_other by auto. assumption.
               ++ injection S as <-. cbn [mrun]. rewrite upd_other by auto. assumption.
               ++ destruct (exec E (agent u d) a (msh c w)) as [y s l|f]; [|discriminate]. injection S as <-. cbn [mafter mrun]. rewrite upd_other by auto. assumption.
               ++ destruct (exec E (agent u d) a (msh c w)) as [y s l|f]; [|discriminate]. destruct (ag y); injection S as <-; [assumption|]. cbn [mafter mrun]. rewrite upd_other by auto. assumption.
          * eapply wq_rest; [|exact Wx]. econstructor; [constructor|split; [exact P|exact Own]|exact S].
      - right. assert (Hh : exists h, mhist c' = mhist c ++ h /\ forall e, In e h -> is_mend id e = false).
        { destruct l as [u q|u]; cbn [mstep] in S; destruct (mrun c u) as [z|] eqn:Z; try discriminate.
          - destruct (mhas (mgiven c) q); [|discriminate]. injection S as <-. cbn [mhist]. eexists. split; [reflexivity|]. intros e [<-|[]]. reflexivity.
          - pose proof (ca_open _ C _ _ Z) as [_ Dz]. assert (Nz : m_id z =? id = false) by (apply Nat.eqb_neq; intros Q1; rewrite Q1 in Dz; congruence).
            destruct (m_prog z) as [r1|m|w d1 a k|w d1 a ag k].
            + injection S as <-. cbn [mhist]. eexists. split; [reflexivity|]. intros e [<-|[]]. exact Nz.
            + injection S as <-. cbn [mhist]. eexists. split; [reflexivity|]. intros e [<-|[]]. exact Nz.
            + destruct (exec E (agent u d1) a (msh c w)) as [y s l|f]; [|discriminate]. injection S as <-. cbn [mafter mhist]. eexists. split; [reflexivity|].
              intros e H. apply in_map_iff in H as (? & <- & _). reflexivity.
            + destruct (exec E (agent u d1) a (msh c w)) as [y s l|f]; [|discriminate]. destruct (ag y); injection S as <-.
              * exists []. split; [now rewrite app_nil_r|intros e []].
              * cbn [mafter mhist]. eexists. split; [reflexivity|]. intros e H. apply in_map_iff in H as (? & <- & _). reflexivity. }
        destruct Hh as (h & Hh & Nh).
        assert (NR : forall u r', In (MRet id u r') (mhist c') -> In (MRet id u r') (mhist c)).
        { intros u r' H. rewrite Hh in H. apply in_app_or in H as [H|H]; [assumption|]. apply Nh in H. simpl in H. now rewrite Nat.eqb_refl in H. }
        split; [|split; [|split]].
        + exists r, d. split; [assumption|]. split; [eapply later_trans; eassumption|]. split; [assumption|]. rewrite Hh. apply in_or_app. now left.
        + rewrite Hh, mdone_app, Dn. reflexivity.
        + intros u r1 r2 H1 H2. apply (Un u); auto.
        + intros u m H. rewrite Hh in H. apply in_app_or in H as [H|H]; [now apply NP in H|]. apply Nh in H. simpl in H. now rewrite Nat.eqb_refl in H.
    Qed.
    Lemma track_later Q c : execution cb -> track Q cb -> later cb c -> track Q c.
    Proof.
      intros X T L. induction L as [|c l c' L IH P S]; [assumption|]. apply (track_step Q c l c'); [eapply execution_later; [exact X|exact L]|exact L|assumption|assumption|assumption].
    Qed.
  End Thread.

  (** ** The results *)
  Lemma start_mop c t q c' : mclient E l0 c (MLInv t q) -> mstep E EqWait c (MLInv t q) = MNext c' -> execution c ->
    execution c' /\ mrun c' t = Some (MCall (length (mhist c)) q (mop_prog E EqWait q)) /\ msh c' = msh c /\ (forall g, In g (mneeds q) -> In g (mgiven c)).
  Proof.
    intros P S X. split; [eapply execution_later; [exact X|econstructor; [constructor|exact P|exact S]]|].
    cbn [mstep] in S. destruct (mrun c t); [discriminate|]. destruct (mhas (mgiven c) q) eqn:H; [|discriminate]. injection S as <-. cbn [mrun msh].
    split; [now rewrite upd_same|]. split; [reflexivity|]. now apply mhas_in.
  Qed.
  (** References are to elements that have values. *)
  Lemma given_has c w g : execution c -> In (w, g) (mgiven c) -> grant_ok (msh c w) g.
  Proof.
    intros X H. destruct (msim_reach w c X) as (r & Xr & M). apply (ms_given _ _ _ _ _ M) in H. rewrite <- (ms_sh _ _ _ _ _ M).
    destruct (simulation _ _ _ _ _ _ _ Xr) as [R Sm]. destruct (Sm _ (consistent_self _)) as (cc & Xc & Si).
    destruct (execution_world _ _ _ _ _ _ cc Xc) as (snap & gh & [G _ _ _]). pose proof (gi_given _ _ _ _ _ _ _ _ G) as F.
    rewrite (sm_given _ _ _ Si), (sm_sh _ _ _ Si) in F. rewrite Forall_forall in F. auto.
  Qed.

  Theorem eq_result c t a b c1 c2 : execution c -> mstep E EqWait c (MLInv t (MEq a b)) = MNext c1 -> later c1 c2 ->
    forall r, In (MRet (length (mhist c)) t r) (mhist c2) -> exists z l l', r = RBool z /\ covers a c c2 l /\ covers b c c2 l' /\
      verdict t (length (mhist c)) (MEq a b) c1 z c2 (vec_of a) (vec_of b) l l'.
  Proof.
    intros X S L r Hr. destruct (start_mop c t (MEq a b) c1 Logic.I S X) as (X1 & R1 & S1 & G1). set (id := length (mhist c)) in *.
    set (Q := fun (r : ret V) (c' : mcfg V) => exists z l l', r = RBool z /\ (forall d, later c' d -> covers a c d l) /\ (forall d, later c' d -> covers b c d l') /\
      verdict t id (MEq a b) c1 z c' (vec_of a) (vec_of b) l l').
    assert (T : track t id (MEq a b) c1 Q c1).
    { left. eexists. split; [exact R1|]. split; [reflexivity|]. split; [reflexivity|]. cbn [m_prog mop_prog]. unfold side_eq.
      assert (As : forall A B (p : mprog V A) (f : A -> mprog V B) (K : B -> mprog V (ret V)) c, wq t id (MEq a b) c1 Q (qbind p (fun b => qbind (f b) K)) c -> wq t id (MEq a b) c1 Q (qbind (qbind p f) K) c).
      { clear. intros A B. induction p as [r|m|w d x k IH|w d x ag k IH]; intros f K c' H; cbn [qbind wq] in *; eauto. }
      assert (Fs : forall q, (q = a \/ q = b) -> forall w x, q = Part w x -> forall i, sl_a x <= i < sl_a x + sl_len x -> has c1 w i).
      { intros q Hq w x -> i Hi. unfold has. rewrite S1. assert (In (w, GSlice x) (mgiven c)).
        { apply G1. cbn [mneeds]. apply in_or_app. destruct Hq as [<-|<-]; [left|right]; now left. }
        pose proof (given_has c w _ X H) as F. simpl in F. apply F. assumption. }
      apply As. apply wq_side; [assumption|apply Fs; now left|]. intros l ca Xa La Ca Ha.
      apply As. apply wq_side; [assumption| |].
      { intros w x Hq i Hi. apply (has_later c1); auto. eapply Fs; eauto. }
      intros l' cb Xb Lb Cb Hb. assert (L1b : later c1 cb) by (eapply later_trans; eassumption).
      apply wq_elems; [assumption|assumption|intros i Hi; apply (has_later ca); auto|assumption|].
      intros z c' X' L' Lb' O. cbn [wq]. intros c'' X'' Lb'' R''. exists z, l, l'. split; [reflexivity|]. split; [|split].
      - intros d Ld. assert (D : later ca d) by (eapply later_trans; [exact Lb|]; eapply later_trans; [exact L'|]; eapply later_trans; [exact (rest_later t _ _ R'')|exact Ld]).
        specialize (Ca d D). clear - Ca S1. destruct a; cbn [covers] in *; [rewrite S1 in Ca|]; exact Ca.
      - intros d Ld. assert (D : later cb d) by (eapply later_trans; [exact L'|]; eapply later_trans; [exact (rest_later t _ _ R'')|exact Ld]).
        specialize (Cb d D). clear - Cb S1 Xa La X1. destruct b as [w|w x]; cbn [covers] in *; [|exact Cb]. destruct Cb as (n & C1 & C2 & C3). exists n. split; [assumption|]. split; [|assumption].
        rewrite <- S1. pose proof (le_wrtn _ _ (later_le w _ _ X1 La)). lia.
      - eapply verdict_later; [exact (rest_later t _ _ R'')|assumption]. }
    pose proof (track_later t id (MEq a b) c1 Q c2 X1 T L) as T2. destruct T2 as [(x & Rx & Ix & Ox & _)|((r' & d & D1 & D2 & (z & l & l' & Q1 & Q2 & Q3 & Q4) & D4) & _ & Un & _)].
    - exfalso. pose proof (ca_open _ (mexec_calls c2 (execution_later _ _ X1 L)) _ _ Rx) as [_ Op]. rewrite Ix in Op. unfold mdone in Op.
      assert (K : existsb (is_mend id) (mhist c2) = true) by (apply existsb_exists; exists (MRet id t r); split; [assumption|simpl; apply Nat.eqb_refl]). congruence.
    - assert (r = r') by (eapply Un; eassumption). subst r'. exists z, l, l'. split; [assumption|]. split; [auto|]. split; [auto|]. eapply verdict_later; eauto.
  Qed.

  Lemma verdict_true t id o cb c w w' : forall l l', verdict t id o cb true c w w' l l' ->
    length l = length l' /\ forall k i j, nth_error l k = Some i -> nth_error l' k = Some j -> pair_is t id o cb true c w w' i j.
  Proof.
    induction l as [|i l IH]; intros [|j l']; simpl; try discriminate.
    - intros _. split; [reflexivity|]. intros [|k] ? ? H; discriminate.
    - intros [[_ H]|[H O]]; [discriminate|]. apply IH in O as [O1 O2]. split; [now rewrite O1|]. intros [|k] i' j' H1 H2; simpl in *; [injection H1 as <-; injection H2 as <-; assumption|eauto].
  Qed.
  Lemma verdict_false t id o cb c w w' : forall l l', verdict t id o cb false c w w' l l' ->
    exists k, (forall k' i j, k' < k -> nth_error l k' = Some i -> nth_error l' k' = Some j -> pair_is t id o cb true c w w' i j) /\
      ((exists i j, nth_error l k = Some i /\ nth_error l' k = Some j /\ pair_is t id o cb false c w w' i j) \/
       k = length l /\ k < length l' \/ k = length l' /\ k < length l).
  Proof.
    induction l as [|i l IH]; intros [|j l']; cbn [verdict]; try discriminate.
    - intros _. exists 0. split; [intros; lia|]. right. left. simpl. lia.
    - intros _. exists 0. split; [intros; lia|]. right. right. simpl. lia.
    - intros [[H _]|[H O]].
      + exists 0. split; [intros; lia|]. left. exists i, j. auto.
      + apply IH in O as (k & O1 & O2). exists (S k). split.
        * intros [|k'] i' j' Hk H1 H2; cbn [nth_error] in *; [injection H1 as <-; injection H2 as <-; assumption|]. eapply O1; eauto. lia.
        * cbn [nth_error length]. destruct O2 as [O2|[[O2 O3]|[O2 O3]]]; [left; exact O2|right; left; lia|right; right; lia].
  Qed.

  Theorem elem_result c t w i w' j c1 c2 : execution c -> mstep E EqWait c (MLInv t (MEqElem w i w' j)) = MNext c1 -> later c1 c2 ->
    forall r, In (MRet (length (mhist c)) t r) (mhist c2) ->
      exists x y, r = RBool (eqv E x y) /\ met E EqWait l0 c1 c2 (length (mhist c)) t (MEqElem w i w' j) w i x w' j y.
  Proof.
    intros X S L r Hr. destruct (start_mop c t (MEqElem w i w' j) c1 Logic.I S X) as (X1 & R1 & S1 & G1). set (id := length (mhist c)) in *. set (o := MEqElem w i w' j) in *.
    set (Q := fun (r : ret V) (c' : mcfg V) => exists x y, r = RBool (eqv E x y) /\ met E EqWait l0 c1 c' id t o w i x w' j y).
    assert (T : track t id o c1 Q c1).
    { left. eexists. split; [exact R1|]. split; [reflexivity|]. split; [reflexivity|]. cbn [m_prog mop_prog o]. apply wq_option; [assumption| | |].
      - unfold has. rewrite S1. apply (given_has c w (GElem i) X). apply G1. now left.
      - unfold has. rewrite S1. apply (given_has c w' (GElem j) X). apply G1. right. now left.
      - intros x y c' X' L' Lb Ne Mt. cbn [wq]. intros c'' X'' Lb'' R''. exists x, y. split; [reflexivity|]. exact (met_later t id o c1 _ _ _ _ _ _ _ _ (rest_later t _ _ R'') Mt). }
    destruct (track_later t id o c1 Q c2 X1 T L) as [(x & Rx & Ix & Ox & _)|((r' & d & D1 & D2 & (x & y & Q1 & Q2) & D4) & _ & Un & _)].
    - exfalso. pose proof (ca_open _ (mexec_calls c2 (execution_later _ _ X1 L)) _ _ Rx) as [_ Op]. rewrite Ix in Op. unfold mdone in Op.
      assert (K : existsb (is_mend id) (mhist c2) = true) by (apply existsb_exists; exists (MRet id t r); split; [assumption|simpl; apply Nat.eqb_refl]). congruence.
    - assert (r = r') by (eapply Un; eassumption). subst r'. exists x, y. split; [assumption|]. exact (met_later t id o c1 _ _ _ _ _ _ _ _ D2 Q2).
  Qed.

  (** ** Comparisons that never end *)
  Lemma track_never t id o cb c : execution cb -> track t id o cb (fun _ _ => False) cb -> later cb c -> mdone (mhist c) id = false.
  Proof.
    intros X T L. destruct (track_later t id o cb _ c X T L) as [(x & Rx & Ix & _)|((r & d & _ & _ & F & _) & _)]; [|destruct F].
    pose proof (ca_open _ (mexec_calls c (execution_later _ _ X L)) _ _ Rx) as [_ Op]. now rewrite Ix in Op.
  Qed.
  Theorem elem_self c t w i c1 c2 : execution c -> mstep E EqWait c (MLInv t (MEqElem w i w i)) = MNext c1 -> later c1 c2 ->
    mdone (mhist c2) (length (mhist c)) = false.
  Proof.
    intros X S L. destruct (start_mop c t (MEqElem w i w i) c1 Logic.I S X) as (X1 & R1 & S1 & G1).
    apply (track_never t _ (MEqElem w i w i) c1); [assumption| |assumption].
    left. eexists. split; [exact R1|]. split; [reflexivity|]. split; [reflexivity|]. cbn [m_prog mop_prog]. apply wq_self; [assumption|].
    unfold has. rewrite S1. apply (given_has c w (GElem i) X). apply G1. now left.
  Qed.
  Lemma starts_cover q c d l i : starts_at q c i -> covers q c d l -> exists l1, l = i :: l1.
  Proof.
    destruct q as [w|w x]; simpl.
    - intros [-> H] (n & -> & H2 & _). destruct n as [|n]; [lia|]. simpl. eauto.
    - intros [-> H] ->. destruct (sl_len x) as [|n]; [lia|]. simpl. eauto.
  Qed.
  Theorem eq_self c t a b i c1 c2 : execution c -> mstep E EqWait c (MLInv t (MEq a b)) = MNext c1 -> later c1 c2 ->
    vec_of a = vec_of b -> starts_at a c i -> starts_at b c i -> mdone (mhist c2) (length (mhist c)) = false.
  Proof.
    intros X S L Ev Sa Sb. destruct (start_mop c t (MEq a b) c1 Logic.I S X) as (X1 & R1 & S1 & G1).
    apply (track_never t _ (MEq a b) c1); [assumption| |assumption]. set (id := length (mhist c)).
    left. eexists. split; [exact R1|]. split; [reflexivity|]. split; [reflexivity|]. cbn [m_prog mop_prog]. unfold side_eq. set (Q := fun (_ : ret V) (_ : mcfg V) => False).
    assert (As : forall A B (p : mprog V A) (f : A -> mprog V B) (K : B -> mprog V (ret V)) c, wq t id (MEq a b) c1 Q (qbind p (fun b => qbind (f b) K)) c -> wq t id (MEq a b) c1 Q (qbind (qbind p f) K) c).
    { clear. intros A B. induction p as [r|m|w d x k IH|w d x ag k IH]; intros f K c' H; cbn [qbind wq] in *; eauto. }
    assert (Fs : forall q, (q = a \/ q = b) -> forall w x, q = Part w x -> forall i, sl_a x <= i < sl_a x + sl_len x -> has c1 w i).
    { intros q Hq w x -> k Hi. unfold has. rewrite S1. assert (In (w, GSlice x) (mgiven c)).
      { apply G1. cbn [mneeds]. apply in_or_app. destruct Hq as [<-|<-]; [left|right]; now left. }
      pose proof (given_has c w _ X H) as F. simpl in F. apply F. assumption. }
    assert (Sa1 : forall q, starts_at q c i -> starts_at q c1 i) by (intros [w|w x]; simpl; rewrite ?S1; auto).
    apply As. apply wq_side; [assumption|apply Fs; now left|]. intros l ca Xa La Ca Ha.
    destruct (starts_cover a c1 ca l i (Sa1 _ Sa) (Ca ca (later_refl _))) as (l1 & ->).
    apply As. apply wq_side; [assumption| |].
    { intros w x Hq k Hi. apply (has_later c1); auto. eapply Fs; eauto. }
    intros l' cb Xb Lb Cb Hb.
    assert (Sb1 : starts_at b ca i). { apply Sa1 in Sb. destruct b as [w|w x]; simpl in *; [|assumption]. pose proof (le_wrtn _ _ (later_le w _ _ X1 La)). lia. }
    destruct (starts_cover b ca cb l' i Sb1 (Cb cb (later_refl _))) as (l1' & ->). cbn [eq_elem_iters]. apply As.
    rewrite <- Ev. apply wq_self; [assumption|]. apply (has_later ca); auto. apply Ha. now left.
  Qed.

  Definition waits_for c t w j : Prop := exists x d ag k, mrun c t = Some x /\ m_prog x = QSpin w d (CasSt j SOME RESERVED) ag k /\
    forall r, ag r = negb (fst r) && st_eqb (snd r) RESERVED.
  Lemma waits_stay c t w j A v : execution c -> held (msh c w) A j v -> waits_for c t w j -> mstep E EqWait c (MLStep t) = MNext c.
  Proof.
    intros X (Hj & HA & Hv) (x & d & ag & k & R & P & Ag). cbn [mstep]. rewrite R, P. cbn [exec]. unfold with_slot.
    destruct (Nat.ltb_spec j (cap (msh c w))); [|lia]. destruct (good_read _ _ _ (mexec_good w c X) Hj HA) as (S & _). rewrite S. cbn [st_eqb]. rewrite Ag. reflexivity.
  Qed.
  Lemma not_done c t x : execution c -> mrun c t = Some x -> mdone (mhist c) (m_id x) = false.
  Proof. intros X R. apply (ca_open _ (mexec_calls c X) t x R). Qed.
  (** Two threads that hold what the other one waits for. *)
  Theorem crossed c t u w i w' j x y c' : execution c -> t <> u -> held (msh c w) (agent t 0) i x -> waits_for c t w' j ->
    held (msh c w') (agent u 0) j y -> waits_for c u w i -> later c c' ->
    mrun c' t = mrun c t /\ mrun c' u = mrun c u.
  Proof.
    intros X N Ht Wt Hu Wu L. enough (K : mrun c' t = mrun c t /\ mrun c' u = mrun c u /\ held (msh c' w) (agent t 0) i x /\ held (msh c' w') (agent u 0) j y) by tauto.
    induction L as [|c1 l c2 L IH P S]; [auto|]. destruct IH as (R1 & R2 & H1 & H2). assert (X1 : execution c1) by (eapply execution_later; eassumption).
    assert (W1 : waits_for c1 t w' j) by (destruct Wt as (z & d & ag & k & A & B); exists z, d, ag, k; rewrite R1; auto).
    assert (W2 : waits_for c1 u w i) by (destruct Wu as (z & d & ag & k & A & B); exists z, d, ag, k; rewrite R2; auto).
    assert (Own : mine t l \/ ~ mine t l) by (destruct l as [v q|v]; simpl; destruct (Nat.eq_dec v t); auto).
    assert (Own' : mine u l \/ ~ mine u l) by (destruct l as [v q|v]; simpl; destruct (Nat.eq_dec v u); auto).
    destruct Own as [Own|Own]; [|destruct Own' as [Own'|Own']].
    - destruct l as [v q|v]; simpl in Own; subst v.
      + destruct W1 as (z & _ & _ & _ & A & _). cbn [mstep] in S. rewrite A in S. discriminate.
      + rewrite (waits_stay c1 t w' j _ _ X1 H2 W1) in S. injection S as <-. auto.
    - destruct l as [v q|v]; simpl in Own'; subst v.
      + destruct W2 as (z & _ & _ & _ & A & _). cbn [mstep] in S. rewrite A in S. discriminate.
      + rewrite (waits_stay c1 u w i _ _ X1 H1 W2) in S. injection S as <-. auto.
    - assert (Rt : rest t c1 c2) by (econstructor; [constructor|split; eassumption|exact S]). assert (Ru : rest u c1 c2) by (econstructor; [constructor|split; eassumption|exact S]).
      assert (Rn : forall v, ~ mine v l -> mrun c2 v = mrun c1 v).
      { intros v Nv. destruct l as [q o|q]; simpl in Nv; cbn [mstep] in S; destruct (mrun c1 q) as [z|]; try discriminate.
        - destruct (mhas (mgiven c1) o); [|discriminate]. injection S as <-. cbn [mrun]. now rewrite upd_other by auto.
        - destruct (m_prog z) as [r|m|v' d a k|v' d a ag k].
          + injection S as <-. cbn [mrun]. now rewrite upd_other by auto.
          + injection S as <-. cbn [mrun]. now rewrite upd_other by auto.
          + destruct (exec E (agent q d) a (msh c1 v')) as [y' s l|f]; [|discriminate]. injection S as <-. cbn [mafter mrun]. now rewrite upd_other by auto.
          + destruct (exec E (agent q d) a (msh c1 v')) as [y' s l|f]; [|discriminate]. destruct (ag y'); injection S as <-; [reflexivity|]. cbn [mafter mrun]. now rewrite upd_other by auto. }
      rewrite (Rn t Own), (Rn u Own'). split; [assumption|]. split; [assumption|]. split; [exact (rest_held t _ _ _ _ _ _ X1 Rt H1)|exact (rest_held u _ _ _ _ _ _ X1 Ru H2)].
  Qed.
End Whole.

(** ** Comparisons that run alone *)
Section Alone.
  Context {V : Type} (E : env V) (md : eqmode) (t : nat).
  Notation mem := (nat -> shared V).
  Implicit Types (S : mem) (w : nat).

  Fixpoint al {R} (p : mprog V R) S (Q : R -> mem -> Prop) : Prop :=
    match p with
    | QRet r => Q r S
    | QPan _ => False
    | QAct w d a k => match exec E (agent t d) a (S w) with Done y s _ => al (k y) (upd S w s) Q | Bad _ => False end
    | QSpin w d a again k => match exec E (agent t d) a (S w) with Done y s _ => again y = false /\ al (k y) (upd S w s) Q | Bad _ => False end
    end.
  Lemma al_bind {A B} (p : mprog V A) (f : A -> mprog V B) S Q : al p S (fun x S' => al (f x) S' Q) -> al (qbind p f) S Q.
  Proof.
    revert S. induction p as [r|m|w d a k IH|w d a ag k IH]; intros S H; cbn [qbind al] in *; auto; destruct (exec E (agent t d) a (S w)); auto. destruct H. auto.
  Qed.
  Lemma al_mono {A} (p : mprog V A) S (Q Q' : A -> mem -> Prop) : (forall x S', Q x S' -> Q' x S') -> al p S Q -> al p S Q'.
  Proof.
    intros HQ. revert S. induction p as [r|m|w d a k IH|w d a ag k IH]; intros S H; cbn [al] in *; auto; destruct (exec E (agent t d) a (S w)); auto. destruct H. auto.
  Qed.
  Lemma al_on {A B} w (p : prog V A) (f : A -> prog V B) S Q : al (on w p) S (fun x S' => al (on w (f x)) S' Q) -> al (on w (bind p f)) S Q.
  Proof.
    revert S. induction p as [r|m|a k IH|a ag k IH]; intros S H; cbn [bind on al] in *; auto; destruct (exec E (agent t 0) a (S w)); auto. destruct H. auto.
  Qed.

  (** The run in the machine. *)
  Lemma al_run p : forall c x Q, mrun c t = Some x -> m_prog x = p -> al p (msh c) Q ->
    exists r c1 c', alone E md t c c1 /\ mrun c1 t = Some (MCall (m_id x) (m_op x) (QRet r)) /\ Q r (msh c1) /\
                    mstep E md c1 (MLStep t) = MNext c' /\ exists h, mhist c1 = mhist c ++ h /\ mhist c' = mhist c ++ h ++ [MRet (m_id x) t r].
  Proof.
    induction p as [r|m|w d a k IH|w d a ag k IH]; intros c x Q R P H; cbn [al] in H.
    - exists r, c. eexists. split; [constructor|]. split; [rewrite R; f_equal; destruct x; cbn in *; now subst|]. split; [assumption|]. cbn [mstep]. rewrite R, P. split; [reflexivity|].
      exists []. rewrite app_nil_r. auto.
    - contradiction.
    - destruct (exec E (agent t d) a (msh c w)) as [y s l|f] eqn:Ex; [|contradiction].
      destruct (IH y (mafter t c x (k y) w d s l) (MCall (m_id x) (m_op x) (k y)) Q) as (r & c1 & c' & A & B & C & D & h & Hh & Hh'); cbn [mafter mrun msh m_prog m_id m_op mhist] in *; [now rewrite upd_same|reflexivity|assumption|].
      exists r, c1, c'. split.
      + clear - A R P Ex. assert (S1 : alone E md t c (mafter t c x (k y) w d s l)) by (apply (mreach_step E md _ c c (MLStep t)); [constructor|reflexivity|]; cbn [mstep]; rewrite R, P, Ex; reflexivity).
        unfold alone in *. induction A as [|c2 l2 c3 A IH P2 S2]; [assumption|]. eapply mreach_step; [exact IH|exact P2|exact S2].
      + split; [assumption|]. split; [assumption|]. split; [assumption|]. exists (map (MAcc (m_id x) t w d) l ++ h). rewrite Hh, Hh', !app_assoc. auto.
    - destruct (exec E (agent t d) a (msh c w)) as [y s l|f] eqn:Ex; [|contradiction]. destruct H as [Ag H].
      destruct (IH y (mafter t c x (k y) w d s l) (MCall (m_id x) (m_op x) (k y)) Q) as (r & c1 & c' & A & B & C & D & h & Hh & Hh'); cbn [mafter mrun msh m_prog m_id m_op mhist] in *; [now rewrite upd_same|reflexivity|assumption|].
      exists r, c1, c'. split.
      + clear - A R P Ex Ag. assert (S1 : alone E md t c (mafter t c x (k y) w d s l)) by (apply (mreach_step E md _ c c (MLStep t)); [constructor|reflexivity|]; cbn [mstep]; rewrite R, P, Ex, Ag; reflexivity).
        unfold alone in *. induction A as [|c2 l2 c3 A IH P2 S2]; [assumption|]. eapply mreach_step; [exact IH|exact P2|exact S2].
      + split; [assumption|]. split; [assumption|]. split; [assumption|]. exists (map (MAcc (m_id x) t w d) l ++ h). rewrite Hh, Hh', !app_assoc. auto.
  Qed.

  Definition calm S w (l : list V) : Prop :=
    resv (S w) = length l /\ wrtn (S w) <= length l /\ length l <= cap (S w) /\ forall i v, nth_error l i = Some v -> slots (S w) i = Slot SOME (Some v) None [].
  Lemma calm_other S w w' s l : w <> w' -> calm S w l -> calm (upd S w' s) w l.
  Proof. intros N. unfold calm. now rewrite upd_other by assumption. Qed.
  Lemma calm_upd S w s l : calm S w l -> resv s = resv (S w) -> wrtn s <= length l -> cap s = cap (S w) ->
    (forall i, slots s i = slots (S w) i) -> calm (upd S w s) w l.
  Proof.
    intros (A & B & C & D) H1 H2 H3 H4. unfold calm. rewrite upd_same. repeat split; try congruence; try lia. intros i v Hi. rewrite H4. auto.
  Qed.
  Definition beside w S S' : Prop := forall w', w' <> w -> S' w' = S w'.
  Lemma beside_refl w S : beside w S S.
  Proof. now intros w' _. Qed.
  Lemma beside_trans w S1 S2 S3 : beside w S1 S2 -> beside w S2 S3 -> beside w S1 S3.
  Proof. intros A B w' N. now rewrite B, A. Qed.
  Lemma beside_upd w S s : beside w S (upd S w s).
  Proof. intros w' N. now rewrite upd_other. Qed.
  Lemma beside_calm w S S' v l : beside w S S' -> v <> w -> calm S v l -> calm S' v l.
  Proof. intros B N C. unfold calm. now rewrite (B _ N). Qed.
  Lemma calm_same S w l : calm S w l -> calm (upd S w (S w)) w l.
  Proof. intros C. apply calm_upd; auto. apply C. Qed.

  Lemma al_count w l n : forall S i (Q : nat -> mem -> Prop), calm S w l -> i + n = length l -> (forall S', calm S' w l -> beside w S S' -> Q n S') -> al (on w (count_pushed i n)) S Q.
  Proof.
    induction n as [|n IH]; intros S i Q C Hn H; cbn [count_pushed].
    - cbn [on al]. apply H; [assumption|apply beside_refl].
    - unfold is_some_with_order. apply al_on. apply al_on. cbn [doo on al exec]. unfold with_slot. destruct C as (C1 & C2 & C3 & C4) eqn:Hc. clear Hc.
      destruct (Nat.ltb_spec i (cap (S w))); [|lia]. destruct (nth_error l i) as [v|] eqn:Hv; [|apply nth_error_None in Hv; lia]. rewrite (C4 _ _ Hv). cbn [sst st_eqb].
      apply al_on. apply IH; [now apply calm_same|lia|]. intros S' C' B. cbn [on al]. apply H; [assumption|]. eapply beside_trans; [apply beside_upd|exact B].
  Qed.
  Lemma al_iter w l S (Q : list nat -> mem -> Prop) : calm S w l -> (forall S', calm S' w l -> beside w S S' -> Q (seq 0 (length l)) S') -> al (on w vec_iter) S Q.
  Proof.
    intros C H. unfold vec_iter. apply al_on. unfold vec_len. apply al_on. cbn [doo on al exec]. set (S1 := upd S w (S w)).
    assert (C1 : calm S1 w l) by now apply calm_same. assert (B1 : beside w S S1) by apply beside_upd.
    assert (Hw : wrtn (S w) <= length l) by apply C. set (n := wrtn (S w)) in *. clearbody S1 n.
    apply al_on. unfold core_capacity. cbn [doo on al exec]. set (S2 := upd S1 w (S1 w)).
    assert (C2 : calm S2 w l) by now apply calm_same. assert (B2 : beside w S S2) by (eapply beside_trans; [exact B1|apply beside_upd]).
    assert (Hc : length l <= cap (S1 w)) by apply C1. set (m := cap (S1 w)) in *. clearbody S2 m. clear C1 B1 S1.
    apply al_on. cbn [doo on al exec]. assert (Hr : resv (S2 w) = length l) by apply C2. rewrite Hr.
    set (S3 := upd S2 w (S2 w)). assert (C3 : calm S3 w l) by now apply calm_same. assert (B3 : beside w S S3) by (eapply beside_trans; [exact B2|apply beside_upd]). clearbody S3. clear Hr C2 B2 S2.
    destruct (Nat.leb_spec (length l) m); [|lia]. apply al_on. unfold core_iter_over_range. apply al_on. cbn [doo on al exec].
    assert (Hc3 : length l <= cap (S3 w)) by apply C3. destruct (Nat.leb_spec n (length l)); [|lia]. destruct (Nat.leb_spec (length l) (cap (S3 w))); [|lia]. cbn [andb].
    set (S4 := upd S3 w (S3 w)). assert (C4 : calm S4 w l) by now apply calm_same. assert (B4 : beside w S S4) by (eapply beside_trans; [exact B3|apply beside_upd]). clearbody S4. clear Hc3 C3 B3 S3 H2.
    apply al_on. apply (al_count w l); [assumption|lia|]. intros S5 C5 B5. apply al_on. cbn [doo on al exec].
    replace (n + (length l - n)) with (length l) by lia. set (S6 := upd S5 w _).
    assert (C6 : calm S6 w l). { apply calm_upd; auto. cbn [wrtn]. destruct C5 as (_ & C5 & _). lia. }
    assert (B6 : beside w S S6) by (eapply beside_trans; [exact B4|]; eapply beside_trans; [exact B5|apply beside_upd]). clearbody S6.
    unfold core_iter, core_iter_over_range. apply al_on. cbn [doo on al exec].
    assert (Hc6 : length l <= cap (S6 w)) by apply C6. destruct (Nat.leb_spec 0 (length l)); [|lia]. destruct (Nat.leb_spec (length l) (cap (S6 w))); [|lia]. cbn [andb].
    rewrite Nat.sub_0_r. apply H; [now apply calm_same|]. eapply beside_trans; [exact B6|apply beside_upd].
  Qed.

  Lemma set_slot_at (s : shared V) i x : slots (set_slot s i x) i = x.
  Proof. unfold set_slot. cbn [slots]. apply upd_same. Qed.
  Lemma is_nil_agent : is_nil (remove1 (agent t 0) [agent t 0]) = true.
  Proof. cbn [remove1]. now rewrite Nat.eqb_refl. Qed.
  (** A run of accesses to one slot puts it back. *)
  Definition like (s : shared V) i (x : slot V) (s' : shared V) : Prop :=
    resv s' = resv s /\ wrtn s' = wrtn s /\ cap s' = cap s /\ slots s' i = x /\ forall j, j <> i -> slots s' j = slots s j.
  Lemma like_set s i x s' y : like s i x s' -> like s i y (set_slot s' i y).
  Proof.
    intros (A & B & C & D & F). unfold like, set_slot. cbn [resv wrtn cap slots]. rewrite upd_same. repeat split; auto. intros j N. rewrite upd_other by assumption. auto.
  Qed.
  Lemma with_slot_like {A} s0 i x s (f : slot V -> Mem.outcome V A) : like s0 i x s -> i < cap s0 -> with_slot s i f = f x.
  Proof. intros (_ & _ & C & D & _) H. unfold with_slot. rewrite C, D. destruct (Nat.ltb_spec i (cap s0)); [reflexivity|lia]. Qed.
  Lemma like_calm S S' w l i v : calm S w l -> nth_error l i = Some v -> like (S w) i (Slot SOME (Some v) None []) (S' w) -> calm S' w l.
  Proof.
    intros (A & B & C & D) Hi (A' & B' & C' & D' & F'). unfold calm. rewrite A', B', C'. repeat split; auto. intros j y Hj. destruct (Nat.eq_dec j i) as [->|N]; [|rewrite F' by assumption; auto].
    rewrite D'. congruence.
  Qed.
  Lemma al_option w i w' j l l' x y S (Q : bool -> mem -> Prop) : w <> w' -> calm S w l -> calm S w' l' -> nth_error l i = Some x -> nth_error l' j = Some y ->
    (forall S', calm S' w l -> calm S' w' l' -> Q (eqv E x y) S') -> al (option_eq E md w i w' j) S Q.
  Proof.
    intros N C C' Hx Hy H. assert (Ci : i < cap (S w)). { assert (i < length l) by (apply nth_error_Some; congruence). destruct C as (_ & _ & C & _). lia. }
    assert (Cj : j < cap (S w')). { assert (j < length l') by (apply nth_error_Some; congruence). destruct C' as (_ & _ & C' & _). lia. }
    assert (Li : like (S w) i (Slot SOME (Some x) None []) (S w)) by (repeat split; auto; apply C; assumption).
    assert (Lj : like (S w') j (Slot SOME (Some y) None []) (S w')) by (repeat split; auto; apply C'; assumption).
    assert (Fin : forall S', like (S w) i (Slot SOME (Some x) None []) (S' w) -> like (S w') j (Slot SOME (Some y) None []) (S' w') -> Q (eqv E x y) S').
    { intros S' A B. apply H; [eapply like_calm; [exact C|exact Hx|exact A]|eapply like_calm; [exact C'|exact Hy|exact B]]. }
    clear H C C' Hx Hy. unfold option_eq, q_get, q_wait, q_try, q_look, q_drop, qdo, second. assert (Nb : w =? w' = false) by now apply Nat.eqb_neq. rewrite Nb.
    assert (N' : w' <> w) by auto.
    assert (LL : forall S1 z z' zi', like (S w) i z (S1 w) -> like (S w') j z' (S1 w') ->
               like (S w) i zi' (upd S1 w (set_slot (S1 w) i zi') w) /\ like (S w') j z' (upd S1 w (set_slot (S1 w) i zi') w')).
    { intros S1 z z' zi' A B. rewrite upd_same, upd_other by assumption. split; [eapply like_set; exact A|exact B]. }
    assert (LR : forall S1 z z' zj', like (S w) i z (S1 w) -> like (S w') j z' (S1 w') ->
               like (S w) i z (upd S1 w' (set_slot (S1 w') j zj') w) /\ like (S w') j zj' (upd S1 w' (set_slot (S1 w') j zj') w')).
    { intros S1 z z' zi' A B. rewrite upd_same, upd_other by assumption. split; [exact A|eapply like_set; exact B]. }
    assert (L0 : forall S1 z z' v, like (S w) i z (S1 w) -> like (S w') j z' (S1 w') -> like (S w) i z (upd S1 v (S1 v) w) /\ like (S w') j z' (upd S1 v (S1 v) w')).
    { intros S1 z z' v A B. unfold upd. destruct (Nat.eqb_spec w v) as [->|]; destruct (Nat.eqb_spec w' v) as [->|]; auto. }
    Ltac touch Li Ci := rewrite (with_slot_like _ _ _ _ _ Li Ci); cbn [sst sval swr srd st_eqb is_none fst snd negb andb remove1]; rewrite ?Nat.eqb_refl.
    Ltac left_step LL Ci Li Lj := touch Li Ci;
      match goal with |- context [upd ?S1 ?w (set_slot (?S1 ?w) ?i ?z')] =>
        let H := fresh in let S2 := fresh "S" in pose proof (LL S1 _ _ z' Li Lj) as H; set (S2 := upd S1 w (set_slot (S1 w) i z')) in *; clearbody S2;
        clear Li Lj; destruct H as [Li Lj]
      end.
    Ltac right_step LR Cj Li Lj := touch Lj Cj;
      match goal with |- context [upd ?S1 ?w (set_slot (?S1 ?w) ?i ?z')] =>
        let H := fresh in let S2 := fresh "S" in pose proof (LR S1 _ _ z' Li Lj) as H; set (S2 := upd S1 w (set_slot (S1 w) i z')) in *; clearbody S2;
        clear Li Lj; destruct H as [Li Lj]
      end.
    destruct md; cbn [qbind al exec].
    - left_step LL Ci Li Lj. split; [reflexivity|]. cbn [qbind al exec]. left_step LL Ci Li Lj. right_step LR Cj Li Lj. split; [reflexivity|].
      cbn [qbind al exec]. right_step LR Cj Li Lj. right_step LR Cj Li Lj. right_step LR Cj Li Lj. left_step LL Ci Li Lj. left_step LL Ci Li Lj. apply Fin; assumption.
    - left_step LL Ci Li Lj. cbn [qbind al exec]. left_step LL Ci Li Lj. right_step LR Cj Li Lj.
      cbn [qbind al exec]. right_step LR Cj Li Lj. right_step LR Cj Li Lj. right_step LR Cj Li Lj. left_step LL Ci Li Lj. left_step LL Ci Li Lj. apply Fin; assumption.
    - touch Li Ci. destruct (L0 _ _ _ w Li Lj) as [Li1 Lj1]. set (S1 := upd S w (S w)) in *. clearbody S1. cbn [qbind al exec]. left_step LL Ci Li1 Lj1. touch Lj1 Cj.
      destruct (L0 _ _ _ w' Li1 Lj1) as [Li2 Lj2]. match goal with |- context [upd ?S1 w' (?S1 w')] => set (S2 := upd S1 w' (S1 w')) in *; clearbody S2 end.
      cbn [qbind al exec]. right_step LR Cj Li2 Lj2. right_step LR Cj Li2 Lj2. left_step LL Ci Li2 Lj2. apply Fin; assumption.
  Qed.

  Lemma al_elems w w' l l' (Q : bool -> mem -> Prop) : w <> w' -> forall n k S, calm S w l -> calm S w' l' -> n = length l - k -> k <= length l -> k <= length l' ->
    (forall S', calm S' w l -> calm S' w' l' -> Q (same E (skipn k l) (skipn k l')) S') ->
    al (eq_elem_iters E md w w' (seq k (length l - k)) (seq k (length l' - k))) S Q.
  Proof.
    intros N. induction n as [|n IH]; intros k S C C' Hn Hk Hk' H.
    - assert (k = length l) by lia. subst k. rewrite Nat.sub_diag, skipn_all in *. cbn [seq].
      destruct (length l' - length l) as [|m] eqn:Q1; cbn [seq eq_elem_iters al].
      + assert (length l' = length l) by lia. rewrite <- H0 in H. rewrite skipn_all in H. apply H; assumption.
      + destruct (skipn (length l) l') as [|v r] eqn:Q2; [|apply H; assumption]. apply (f_equal (@length V)) in Q2. rewrite skipn_length in Q2. simpl in Q2. lia.
    - rewrite <- Hn. cbn [seq]. destruct (nth_error l k) as [x|] eqn:Hx; [|apply nth_error_None in Hx; lia].
      assert (Sk : skipn k l = x :: skipn (Datatypes.S k) l). { clear - Hx. revert k Hx. induction l as [|a l IH]; intros [|k] H; try discriminate; [now injection H as ->|]. exact (IH k H). }
      destruct (length l' - k) as [|m] eqn:Q1; cbn [seq eq_elem_iters].
      + cbn [al]. assert (k = length l') by lia. rewrite Sk in H. subst k. rewrite skipn_all in H. apply H; assumption.
      + destruct (nth_error l' k) as [y|] eqn:Hy; [|apply nth_error_None in Hy; lia].
        assert (Sk' : skipn k l' = y :: skipn (Datatypes.S k) l'). { clear - Hy. revert k Hy. induction l' as [|a l' IH]; intros [|k] H; try discriminate; [now injection H as ->|]. exact (IH k H). }
        apply al_bind. eapply (al_option w k w' k); [assumption|exact C|exact C'|exact Hx|exact Hy|]. intros S' D D'. rewrite Sk, Sk' in H. cbn [same] in H.
        destruct (eqv E x y); [|cbn [al]; apply H; assumption].
        replace n with (length l - Datatypes.S k) by lia. replace m with (length l' - Datatypes.S k) by lia. apply IH; auto; lia.
  Qed.
  Lemma al_whole w w' l l' S : w <> w' -> calm S w l -> calm S w' l' ->
    al (mop_prog E md (MEq (Whole w) (Whole w'))) S (fun r S' => r = RBool (same E l l') /\ calm S' w l /\ calm S' w' l').
  Proof.
    intros N C C'. cbn [mop_prog]. apply al_bind. unfold side_eq. apply al_bind. cbn [side_iter vec_of]. apply (al_iter w l); [assumption|]. intros S1 C1 B1. apply al_bind.
    assert (C1' : calm S1 w' l') by (eapply beside_calm; [exact B1|auto|exact C']). apply (al_iter w' l'); [assumption|]. intros S2 C2' B2.
    assert (C2 : calm S2 w l) by (eapply beside_calm; [exact B2|auto|exact C1]).
    rewrite <- (Nat.sub_0_r (length l)), <- (Nat.sub_0_r (length l')). apply (al_elems w w' l l' _ N (length l)); [assumption|assumption|lia|lia|lia|].
    intros S3 D D'. cbn [al skipn]. auto.
  Qed.
End Alone.
