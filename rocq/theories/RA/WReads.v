(** * Views mention only reads that were made. *)

From Coq Require Import List Arith Bool Lia.
From Verif.Model Require Import Prog Mem Deps State Elem Vec Excl Machine.
From Verif Require Import Client.
From Verif.RA Require Import Weak WInv WStep WSound.
Import ListNotations.
Local Arguments Nat.leb : simpl never.
Local Arguments Nat.ltb : simpl never.
Local Arguments Nat.eqb : simpl never.

Section Reads.
  Context {V : Type} (E : env V) (ro : bool) (l0 : list V) (c0 m0 : nat).
  Implicit Types (M : wmem V) (tv : view) (c : wcfg V).

  Definition rok M tv : Prop := forall i r, v_r tv i r = true -> r < wr (m_slots M i).
  Record mrok M : Prop := MkMrok {
    mr_resv : forall m, In m (m_resv M) -> rok M (mview m);
    mr_wrtn : forall m, In m (m_wrtn M) -> rok M (mview m);
    mr_cap : forall m, In m (m_cap M) -> rok M (mview m);
    mr_st : forall i m, In m (ws (m_slots M i)) -> rok M (mview m)
  }.
  Definition wrle M M' : Prop := forall i, wr (m_slots M i) <= wr (m_slots M' i).
  Lemma rok_le M M' tv : wrle M M' -> rok M tv -> rok M' tv.
  Proof. intros L R i r H. specialize (R i r H). specialize (L i). lia. Qed.
  Lemma rok_join M x y : rok M x -> rok M y -> rok M (vjoin x y).
  Proof. intros X Y i r H. simpl in H. apply orb_prop in H as [H|H]; auto. Qed.
  Lemma rok_acq o {A} M (m : msg A) tv : rok M tv -> rok M (mview m) -> rok M (acq o m tv).
  Proof. intros. unfold acq. destruct (acquires o); auto. now apply rok_join. Qed.
  Lemma rok_rel o {A} M (m : msg A) tv : rok M tv -> rok M (mview m) -> rok M (rel o m tv).
  Proof. intros. unfold rel. destruct (releases o); auto. now apply rok_join. Qed.
  Lemma rok_bot M : rok M vbot.
  Proof. intros i r H. discriminate. Qed.

  (** a slot is replaced by one with as many reads, or one more *)
  Lemma mrok_put M i x : mrok M -> wr (m_slots M i) <= wr x -> (forall m, In m (ws x) -> In m (ws (m_slots M i)) \/ rok M (mview m)) ->
    mrok (put_slot M i x) /\ wrle M (put_slot M i x).
  Proof.
    intros R L W. assert (Le : wrle M (put_slot M i x)).
    { intros j. simpl. unfold upd. destruct (Nat.eqb_spec j i) as [->|]; [assumption|lia]. }
    split; [|assumption]. constructor; simpl.
    - intros m H. eapply rok_le; [exact Le|]. now apply (mr_resv _ R).
    - intros m H. eapply rok_le; [exact Le|]. now apply (mr_wrtn _ R).
    - intros m H. eapply rok_le; [exact Le|]. now apply (mr_cap _ R).
    - intros j m H. eapply rok_le; [exact Le|]. unfold upd in H. destruct (Nat.eqb_spec j i) as [->|].
      + destruct (W m H) as [K|K]; [|assumption]. eapply (mr_st _ R); eauto.
      + eapply (mr_st _ R); eauto.
  Qed.
  Lemma wrle_refl M : wrle M M.
  Proof. intros i. lia. Qed.

  Lemma exec_rok id a k M tv y M' tv' : (forall i, latest (m_cap M) <= i -> m_slots M i = wfresh) -> mrok M -> rok M tv ->
    wexec E id a k M tv = WDone y M' tv' -> mrok M' /\ rok M' tv' /\ wrle M M'.
  Proof.
    intros B R T X.
    assert (Same : forall tv'', rok M tv'' -> mrok M /\ rok M tv'' /\ wrle M M) by (intros; repeat split; auto using wrle_refl; apply R).
    assert (Put : forall i x tv'', rok M tv'' -> wr (m_slots M i) <= wr x -> (forall m, In m (ws x) -> In m (ws (m_slots M i)) \/ rok M (mview m)) ->
              mrok (put_slot M i x) /\ rok (put_slot M i x) tv'' /\ wrle M (put_slot M i x)).
    { intros i x tv'' T' L W. destruct (mrok_put M i x R L W) as [A C]. split; [assumption|]. split; [|assumption]. eapply rok_le; eauto. }
    destruct a; simpl in X; unfold with_wslot in X;
      repeat (match type of X with context [match ?e with _ => _ end] => destruct e eqn:? end; try discriminate); injection X as <- <- <-.
    - apply Same. apply rok_acq; [assumption|]. eapply (mr_resv _ R), nth_error_In; eauto.
    - set (tv2 := acq _ _ _). assert (T2 : rok M tv2) by (apply rok_acq; [assumption|]; eapply (mr_resv _ R), nth_error_In; eauto).
      split; [|split; [exact T2|exact (wrle_refl M)]]. constructor; simpl; try apply R. intros m' H. apply in_app_or in H as [H|[<-|[]]]; [now apply (mr_resv _ R)|].
      simpl. apply rok_rel; [exact T2|]. eapply (mr_resv _ R), nth_error_In; eauto.
    - apply Same. apply rok_acq; [assumption|]. eapply (mr_wrtn _ R), nth_error_In; eauto.
    - set (tv2 := acq _ _ _). assert (T2 : rok M tv2) by (apply rok_acq; [assumption|]; eapply (mr_wrtn _ R), nth_error_In; eauto).
      split; [|split; [exact T2|exact (wrle_refl M)]]. constructor; simpl; try apply R. intros m' H. apply in_app_or in H as [H|[<-|[]]]; [now apply (mr_wrtn _ R)|].
      simpl. apply rok_rel; [exact T2|]. eapply (mr_wrtn _ R), nth_error_In; eauto.
    - apply Same. apply (rok_acq Acquire); [assumption|]. eapply (mr_cap _ R), nth_error_In; eauto.
    - now apply Same.
    - apply Same. apply rok_acq; [assumption|]. eapply (mr_st _ R), nth_error_In; eauto.
    - assert (Rm : rok M (mview m)) by (eapply (mr_st _ R), nth_error_In; eauto). apply Put; simpl; [apply (rok_acq Acquire); assumption|lia|].
      intros m' H. apply in_app_or in H as [H|[<-|[]]]; auto.
    - now apply Same.
    - apply Put; simpl; [assumption|lia|]. intros m' H. apply in_app_or in H as [H|[<-|[]]]; auto.
    - apply Put; simpl; [assumption|lia|]. intros m' H. apply in_app_or in H as [H|[<-|[]]]; auto.
    - now apply Same.
    - set (x := WSlot _ _ _ _). destruct (mrok_put M i x R) as [A C]; [simpl; lia|simpl; auto|]. split; [assumption|]. split; [|assumption].
      intros j r H. simpl in H |- *. unfold upd in *. destruct (Nat.eqb_spec j i) as [->|]; [|now apply T]. simpl. apply orb_prop in H as [H|H].
      + apply Nat.eqb_eq in H. lia.
      + specialize (T i r H). lia.
    - now apply Same.
    - apply Put; simpl; auto.
    - match goal with |- mrok (put_slot ?A ?j ?x) /\ _ => set (M1 := A); set (y := x) end.
      assert (P1 : mrok M1 /\ wrle M M1) by (apply mrok_put; simpl; auto). destruct P1 as [A1 C1].
      assert (Ne : j <> i). { apply andb_prop in Heqb1 as [_ Hn]. apply negb_true_iff, Nat.eqb_neq in Hn. congruence. }
      assert (Sj : m_slots M1 j = m_slots M j) by (simpl; unfold upd; destruct (Nat.eqb_spec j i); [contradiction|reflexivity]).
      destruct (mrok_put M1 j y A1) as [A2 C2]; [rewrite Sj; simpl; lia|rewrite Sj; simpl; auto|]. split; [assumption|].
      assert (W : wrle M (put_slot M1 j y)) by (intros q; specialize (C1 q); specialize (C2 q); lia). split; [|assumption]. eapply rok_le; [exact W|exact T].
    - now apply Same.
    - apply Put; simpl; auto.
    - now apply Same.
    - split; [|split; [exact T|exact (wrle_refl M)]]. constructor; simpl; apply R.
    - now apply Same.
    - assert (Ca : capv M tv = latest (m_cap M)) by (unfold capv, latest; apply Nat.eqb_eq in Heqb0; now rewrite Heqb0).
      set (M' := WMem _ _ _ _ _ _). assert (Le : wrle M M').
      { intros j. simpl. destruct (Nat.leb_spec (capv M tv) j); simpl; [|lia]. rewrite B by lia. simpl. lia. }
      split; [|split; [eapply rok_le; eauto|exact Le]]. constructor; simpl.
      + intros m' H. eapply rok_le; [exact Le|]. now apply (mr_resv _ R).
      + intros m' H. eapply rok_le; [exact Le|]. now apply (mr_wrtn _ R).
      + intros m' H. eapply rok_le; [exact Le|]. apply in_app_or in H as [H|[<-|[]]]; [now apply (mr_cap _ R)|exact T].
      + intros j m' H. destruct ((_ <=? _) && _) in H; [|eapply rok_le; [exact Le|]; eapply (mr_st _ R); eauto].
        simpl in H. destruct H as [<-|[]]. apply rok_bot.
  Qed.

  Definition RK c : Prop := mrok (w_mem c) /\ (forall t, rok (w_mem c) (w_view c t)) /\ forall x, In x (w_res c) -> rok (w_mem c) (r_to x).
  Lemma winit_rok (l : list V) n m : mrok (winit l n m).
  Proof.
    constructor; simpl; try (intros x [<-|[]]; apply rok_bot). intros i x H. destruct (nth_error l i); simpl in H; destruct H as [<-|[]]; apply rok_bot.
  Qed.
  Theorem execution_rok c : wexecution E ro l0 c0 m0 c -> RK c.
  Proof.
    intros X. pose proof X as (EO & CO & Le & Lt & Re). clear X. induction Re as [|c l c' Re IH P St].
    - split; [apply winit_rok|]. split; [intros t; apply rok_bot|contradiction].
    - assert (X : wexecution E ro l0 c0 m0 c) by (repeat (split; [assumption|]); assumption).
      destruct (execution_SI E ro _ _ _ _ X) as (EOK & g & S & B). destruct IH as (R & Tv & Rs).
      assert (Bey : forall i, latest (m_cap (w_mem c)) <= i -> m_slots (w_mem c) i = wfresh) by (intros i Hi; apply (wi_beyond _ _ _ _ (si_wi _ _ _ _ S) i Hi)).
      assert (Up : forall f t tv, f = w_view c -> rok (w_mem c) tv -> forall u, rok (w_mem c) (upd f t tv u)).
      { intros f t tv -> T u. unfold upd. destruct (u =? t); auto. }
      assert (Af : forall t x p M tv, mrok M -> rok M tv -> wrle (w_mem c) M -> RK (wafter t c x p M tv)).
      { intros t x p M tv A1 A2 A3. split; [assumption|]. split; simpl.
        - intros u. unfold upd. destruct (u =? t); [assumption|]. eapply rok_le; eauto.
        - intros q H. eapply rok_le; eauto. }
      destruct l as [t o from|t k|t u| |n]; simpl in St.
      + destruct (wlookup t (w_run c)); [discriminate|]. destruct (fetch o from (w_res c)) as [x|] eqn:F; [|discriminate]. injection St as <-.
        split; [assumption|]. split; simpl; [|assumption]. apply Up; [reflexivity|]. apply rok_join; [apply Tv|].
        unfold fetch in F. destruct (needs o); [|injection F as <-; apply rok_bot]. destruct (nth_error (w_res c) from) as [q|] eqn:Q; [|discriminate].
        destruct (existsb _ _); [|discriminate]. injection F as <-. eapply Rs, nth_error_In; eauto.
      + unfold wstep_thread in St. destruct (wlookup t (w_run c)) as [x|]; [|discriminate]. destruct (wc_prog x) as [r|m|a kk|a again kk].
        * injection St as <-. split; [assumption|]. split; [assumption|]. simpl. intros q H. apply in_app_or in H as [H|[<-|[]]]; [auto|]. apply Tv.
        * injection St as <-. split; [assumption|]. split; assumption.
        * destruct (wexec E (wc_id x) a k (w_mem c) (w_view c t)) as [y M tv|f|] eqn:Ex; try discriminate. injection St as <-.
          destruct (exec_rok _ _ _ _ _ _ _ _ Bey R (Tv t) Ex) as (A1 & A2 & A3). auto.
        * destruct (wexec E (wc_id x) a k (w_mem c) (w_view c t)) as [y M tv|f|] eqn:Ex; try discriminate.
          destruct (again y); injection St as <-; [split; [assumption|]; split; assumption|].
          destruct (exec_rok _ _ _ _ _ _ _ _ Bey R (Tv t) Ex) as (A1 & A2 & A3). auto.
      + injection St as <-. split; [assumption|]. split; simpl; [|assumption]. apply Up; [reflexivity|]. apply rok_join; apply Tv.
      + destruct (w_run c); [|discriminate]. destruct (_ <=? _); [|discriminate]. injection St as <-. split; [apply winit_rok|]. split; [intros t; apply rok_bot|contradiction].
      + destruct (w_run c); [|discriminate]. destruct (reserve _ _ _ _); injection St as <-; (split; [|split]); simpl; try assumption.
        constructor; simpl; apply R.
  Qed.
End Reads.
