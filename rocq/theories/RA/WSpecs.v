(** * The view machine: specifications of the functions of the crate. *)

From Coq Require Import List Arith Bool Lia.
From Verif.Model Require Import Prog Mem Deps State Elem Vec Excl Machine.
From Verif Require Import Client.
From Verif.RA Require Import Weak WInv WStep WSlots.
Import ListNotations.
Local Arguments Nat.leb : simpl never.
Local Arguments Nat.ltb : simpl never.
Local Arguments Nat.eqb : simpl never.
Local Arguments Nat.add : simpl never.
Local Arguments Nat.sub : simpl never.
Local Arguments Nat.max : simpl never.
Local Arguments WStep.wp : simpl never.

(** what a call may still hold when it ends; [lossy]: it may leave positions it reserved unused *)
Definition clean (lossy : bool) L : Prop := t_w L = None /\ t_l L = [] /\ t_g L = false /\ (lossy = false -> t_n L = 0).
(** panics that would contradict "an element always has a value" or the policy of growth *)
Definition badp (m : panic) : Prop := m = PHasValue \/ m = PSet \/ m = PUpdate \/ m = PGrow.

Section WSpecs.
  Context {V : Type} (E : env V) (ro : bool) (EOK : env_ok E) (id : nat) (lossy : bool).
  Notation clean := (clean lossy).
  Notation wmem := (wmem V).
  Notation WI := (WI E ro).
  Notation good := (good E ro).
  Notation mle := (mle ro).
  Notation prog := (prog V).
  Implicit Types (M : wmem) (g : nat -> wgst) (tv : view) (L : toks).

  Definition PP (m : panic) L M tv : Prop := ~ badp m /\ clean L.
  Notation wpq Q QP p L M tv := (WStep.wp E ro id Q QP p L M tv).
  Notation wp Q p L M tv := (WStep.wp E ro id Q PP p L M tv).

  Definition now M tv : Prop := good M /\ vok M tv.
  Definition up M tv M' tv' : Prop := vok M tv /\ mle M M' /\ vle tv tv' /\ good M' /\ vok M' tv'.
  Lemma up_refl M tv : now M tv -> up M tv M tv.
  Proof. intros [A B]. exact (conj B (conj (mle_refl _ _) (conj (vle_refl _) (conj A B)))). Qed.
  Lemma up_trans M tv M1 tv1 M2 tv2 : up M tv M1 tv1 -> up M1 tv1 M2 tv2 -> up M tv M2 tv2.
  Proof.
    intros (A & B & C & D & F) (A' & B' & C' & D' & F'). exact (conj A (conj (mle_trans _ _ _ _ B B') (conj (vle_trans _ _ _ C C') (conj D' F')))).
  Qed.
  Lemma up_now M tv M' tv' : up M tv M' tv' -> now M' tv'.
  Proof. intros (A & B & C & D & F). now split. Qed.
  Lemma mk_up M tv M' tv' : vok M tv -> mle M M' -> vle tv tv' -> good M' -> vok M' tv' -> up M tv M' tv'.
  Proof. unfold up. auto. Qed.
  Lemma up_avail M tv M' tv' i : up M tv M' tv' -> avail M tv i -> avail M' tv' i.
  Proof. intros (A & B & C & D & F) H. eapply avail_up; eauto. Qed.
  Lemma up_pub M tv M' tv' i : up M tv M' tv' -> pub M tv i -> pub M' tv' i.
  Proof. intros (A & B & C & D & F) H. eapply pub_up; eauto. Qed.
  Lemma up_resv M tv M' tv' i : up M tv M' tv' -> seen_resv M tv i -> seen_resv M' tv' i.
  Proof. intros (A & B & C & D & F) H. eapply seen_resv_up; eauto. Qed.
  Lemma up_wrtn M tv M' tv' i : up M tv M' tv' -> seen_wrtn M tv i -> seen_wrtn M' tv' i.
  Proof. intros (A & B & C & D & F) H. eapply seen_wrtn_up; eauto. Qed.
  Lemma up_some M tv M' tv' i : up M tv M' tv' -> seen_some M tv i -> seen_some M' tv' i.
  Proof. intros (A & B & C & D & F) H. eapply seen_some_up; eauto. Qed.
  Lemma up_cap M tv M' tv' : up M tv M' tv' -> capv M tv <= capv M' tv'.
  Proof. intros (A & B & C & D & F). eapply capv_up; eauto. Qed.
  Lemma up_val M tv M' tv' i : up M tv M' tv' -> ro = true -> wv (sl M i) <> None -> ww (sl M' i) = ww (sl M i) /\ wv (sl M' i) = wv (sl M i).
  Proof. intros (A & B & C & D & F) R H. now apply (le_ro _ _ _ B R). Qed.
  Lemma pub_less M tv n n' : pub M tv n -> n' <= n -> pub M tv n'.
  Proof. intros (A & (m & B & B') & C) H. repeat split; [lia|exists m; split; [assumption|lia]|]. intros i Hi. apply C. lia. Qed.
  Lemma pub_avail M tv n i : pub M tv n -> i < n -> avail M tv i.
  Proof. intros (A & B & C) H. split; [lia|auto]. Qed.
  Lemma resv_less M tv n n' : seen_resv M tv n -> n' <= n -> seen_resv M tv n'.
  Proof. intros (m & A & B) H. exists m. split; [assumption|lia]. Qed.
  Lemma some_val M tv i : good M -> seen_some M tv i -> wv (sl M i) <> None.
  Proof. intros [g W] S. destruct (ch_val _ _ _ (published_chain _ _ _ _ i W (seen_published _ _ _ S))) as [v Hv]. congruence. Qed.

  (** what a reference is worth *)
  Definition gok M tv (x : grant) : Prop :=
    match x with
    | GElem i => avail M tv i
    | GSlice x => pub M tv (sl_a x + sl_len x)
    | GRef i => avail M tv i /\ (ro = true -> v_w tv i = ww (sl M i))
    end.
  Lemma gok_up M tv M' tv' x : up M tv M' tv' -> good M -> gok M tv x -> gok M' tv' x.
  Proof.
    intros U G. destruct x as [i|x|i]; simpl; [now apply up_avail|now apply up_pub|]. intros [A B]. split; [eapply up_avail; eauto|]. intros R.
    destruct (up_val _ _ _ _ i U R) as [X _]; [eapply some_val; eauto; apply A|]. rewrite X, <- (B R). destruct U as (_ & _ & (_ & _ & _ & _ & C & _) & _ & (_ & _ & _ & _ & D)).
    specialize (C i). specialize (D i). specialize (B R). lia.
  Qed.

  (** ** Single accesses *)
  Lemma w_act {R} (Q : R -> _ -> _ -> _ -> Prop) QP a k L M tv :
    now M tv -> (forall M1 tv1, up M tv M1 tv1 -> step_ok E ro id a (fun _ => false) L M1 tv1 (fun x L' M' tv' => wpq Q QP (k x) L' M' tv')) -> wpq Q QP (Act a k) L M tv.
  Proof. intros [_ O] H. change (step_all E ro id a (fun _ => false) L M tv (fun x L' M' tv' => wpq Q QP (k x) L' M' tv')). intros M1 tv1 A B C D. apply H. now apply mk_up. Qed.
  Lemma w_spin {R} (Q : R -> _ -> _ -> _ -> Prop) QP a again k L M tv :
    now M tv -> (forall M1 tv1, up M tv M1 tv1 -> step_ok E ro id a again L M1 tv1 (fun x L' M' tv' => wpq Q QP (k x) L' M' tv')) -> wpq Q QP (Spin a again k) L M tv.
  Proof. intros [_ O] H. change (step_all E ro id a again L M tv (fun x L' M' tv' => wpq Q QP (k x) L' M' tv')). intros M1 tv1 A B C D. apply H. now apply mk_up. Qed.
  Lemma w_ret {R} (Q : R -> _ -> _ -> _ -> Prop) QP r L M tv : Q r L M tv -> wpq Q QP (Ret r) L M tv.
  Proof. intros H. exact H. Qed.
  Lemma w_fail {R} (Q : R -> _ -> _ -> _ -> Prop) (QP : panic -> _ -> _ -> _ -> Prop) m L M tv : QP m L M tv -> wpq Q QP (Pan m) L M tv.
  Proof. intros H. exact H. Qed.
  Lemma w_pan {R} (Q : R -> _ -> _ -> _ -> Prop) m L M tv : ~ badp m -> clean L -> wp Q (Pan m) L M tv.
  Proof. intros H H'. exact (conj H H'). Qed.
  Lemma w_chkq {A} (Q : A -> _ -> _ -> _ -> Prop) (QP : panic -> _ -> _ -> _ -> Prop) m x L M tv : (x = None -> QP m L M tv) -> (forall y, x = Some y -> Q y L M tv) -> wpq Q QP (chk m x) L M tv.
  Proof. intros H H'. destruct x; simpl; [apply w_ret; auto|apply w_fail; auto]. Qed.
  Lemma w_chk {A} (Q : A -> _ -> _ -> _ -> Prop) m x L M tv : (x = None -> ~ badp m /\ clean L) -> (forall y, x = Some y -> Q y L M tv) -> wp Q (chk m x) L M tv.
  Proof. intros H H'. destruct x; simpl; [apply w_ret; auto|]. destruct (H eq_refl). now apply w_pan. Qed.
  Lemma w_bind {A B} (Q : B -> _ -> _ -> _ -> Prop) QP (p : prog A) (f : A -> prog B) L M tv :
    wpq (fun x L' M' tv' => wpq Q QP (f x) L' M' tv') QP p L M tv -> wpq Q QP (bind p f) L M tv.
  Proof. apply wp_bind. Qed.
  Lemma w_fmap {A B} (Q : B -> _ -> _ -> _ -> Prop) QP (p : prog A) (f : A -> B) L M tv :
    wpq (fun x L' M' tv' => Q (f x) L' M' tv') QP p L M tv -> wpq Q QP (fmap f p) L M tv.
  Proof. apply wp_fmap. Qed.

  Lemma w_cap (Q : nat -> _ -> _ -> _ -> Prop) L M tv :
    now M tv -> (forall c M' tv', up M tv M' tv' -> c <= capv M' tv' -> capv M tv <= c -> Q c L M' tv') -> wp Q core_capacity L M tv.
  Proof.
    intros N H. apply w_act; [assumption|]. intros M0 tv0 U. destruct (up_now _ _ _ _ U) as [G O]. apply do_cap. intros M' c tv' A B C D F H1 H2. apply w_ret.
    apply H; [eapply up_trans; [exact U|now apply mk_up]|assumption|]. rewrite (capv_le _ _ _ _ A O) in H2. pose proof (up_cap _ _ _ _ U). lia.
  Qed.
  Lemma w_resv (Q : nat -> _ -> _ -> _ -> Prop) L M tv :
    now M tv -> (forall n M' tv', up M tv M' tv' -> seen_resv M' tv' n -> (forall n', seen_resv M tv n' -> n' <= n) -> Q n L M' tv') -> wp Q (doo (LoadResv Relaxed)) L M tv.
  Proof.
    intros N H. apply w_act; [assumption|]. intros M0 tv0 U. destruct (up_now _ _ _ _ U) as [G O]. apply do_load_resv. intros M' n tv' A B C D F H1 H2. apply w_ret.
    apply H; [eapply up_trans; [exact U|now apply mk_up]|assumption|]. intros n' Hn. apply H2. eapply seen_resv_up; eauto; [apply vle_refl|eapply up_resv; eauto].
  Qed.
  Lemma w_core_get (Q : option nat -> _ -> _ -> _ -> Prop) i L M tv :
    now M tv -> (forall M' tv', up M tv M' tv' -> i < capv M' tv' -> Q (Some i) L M' tv') -> (forall M' tv', up M tv M' tv' -> capv M tv <= i -> Q None L M' tv') -> wp Q (core_get i) L M tv.
  Proof.
    intros N H H'. apply w_bind. apply w_cap; [assumption|]. intros c M' tv' U A B. apply w_ret. destruct (Nat.ltb_spec i c); [apply H|apply H']; auto; lia.
  Qed.
  Lemma w_iter (Q : list nat -> _ -> _ -> _ -> Prop) a b L M tv :
    now M tv -> a <= b -> b <= capv M tv -> (forall M' tv', up M tv M' tv' -> Q (seq a (b - a)) L M' tv') -> wp Q (core_iter_over_range a b) L M tv.
  Proof.
    intros N Hab Hb H. apply w_bind. apply w_act; [assumption|]. intros M0 tv0 U. destruct (up_now _ _ _ _ U) as [G O]. pose proof (up_cap _ _ _ _ U).
    apply do_iter; auto; [lia|]. intros M' A B C. apply w_ret. apply w_ret. apply H. eapply up_trans; [exact U|]. apply mk_up; auto using vle_refl.
  Qed.

  (** ** [len] *)
  Lemma w_count L k : forall i M tv (Q : nat -> _ -> _ -> _ -> Prop),
    now M tv -> pub M tv i -> i + k <= capv M tv -> seen_resv M tv (i + k) ->
    (forall n M' tv', up M tv M' tv' -> pub M' tv' (i + n) -> Q n L M' tv') -> wp Q (count_pushed i k) L M tv.
  Proof.
    induction k as [|k IH]; intros i M tv Q N P C R H.
    - apply w_ret. apply H; [now apply up_refl|]. now rewrite Nat.add_0_r.
    - apply w_bind. apply w_bind. apply w_act; [assumption|]. intros M0 tv0 U0. destruct (up_now _ _ _ _ U0) as [G O]. pose proof (up_cap _ _ _ _ U0).
      apply do_load_st; [lia|assumption|]. intros M' x tv' A B D F H1 H2 _ _.
      assert (U : up M tv M' tv') by (eapply up_trans; [exact U0|now apply mk_up]). apply w_ret. apply w_ret. destruct (st_eqb_spec x SOME) as [e|]; [|apply w_ret; apply H; [assumption|rewrite Nat.add_0_r; eapply up_pub; eauto]].
      apply w_bind. apply IH; [eapply up_now; eauto| | | |].
      + destruct (up_pub _ _ _ _ _ U P) as (X & Y & Z). repeat split.
        * pose proof (up_cap _ _ _ _ U). lia.
        * apply (resv_less _ _ (i + S k)); [eapply up_resv; eauto|lia].
        * intros j Hj. destruct (Nat.eq_dec j i) as [->|]; [apply H2; congruence|apply Z; lia].
      + pose proof (up_cap _ _ _ _ U). lia.
      + replace (S i + k) with (i + S k) by lia. eapply up_resv; eauto.
      + intros n M2 tv2 U2 P2. apply w_ret. apply H; [eapply up_trans; eauto|]. now replace (i + S n) with (S i + n) by lia.
  Qed.
  Lemma w_len (Q : nat -> _ -> _ -> _ -> Prop) L M tv :
    now M tv -> (forall n M' tv', up M tv M' tv' -> pub M' tv' n -> seen_wrtn M' tv' n -> (forall n', seen_wrtn M tv n' -> n' <= n) -> Q n L M' tv') -> wp Q vec_len L M tv.
  Proof.
    intros N H. unfold vec_len. apply w_bind. apply w_act; [assumption|]. intros M0 tv0 U0. destruct (up_now _ _ _ _ U0) as [G O]. apply do_load_wrtn. intros M1 n tv1 A1 B1 C1 D1 F1 P1 W1. apply w_ret.
    assert (U1 : up M tv M1 tv1) by (eapply up_trans; [exact U0|now apply mk_up]). apply w_bind. apply w_cap; [eapply up_now; eauto|]. intros c M2 tv2 U2 X2 Y2.
    apply w_bind. apply w_resv; [eapply up_now; eauto|]. intros r M3 tv3 U3 X3 Y3. cbv zeta. set (until := if r <=? c then r else c).
    match goal with |- context [core_iter_over_range n ?u] => change u with until end.
    pose proof (up_cap _ _ _ _ U3) as C3. pose proof (up_pub _ _ _ _ _ U2 P1) as P2. pose proof (up_pub _ _ _ _ _ U3 P2) as P3.
    assert (Z1 : n <= c) by (destruct P1; lia). assert (Z2 : n <= r) by (apply Y3; apply P2).
    assert (Z : n <= until /\ until <= capv M3 tv3 /\ until <= r) by (unfold until; destruct (Nat.leb_spec r c); lia). destruct Z as (Za & Zb & Zc).
    apply w_bind. apply w_iter; [eapply up_now; eauto|assumption|assumption|]. intros M4 tv4 U4.
    clearbody until. apply w_bind. apply w_count; [eapply up_now; eauto|eapply up_pub; eauto|pose proof (up_cap _ _ _ _ U4); lia| |].
    { apply (resv_less _ _ r); [eapply up_resv; eauto|lia]. }
    intros k M5 tv5 U5 P5. apply w_bind. apply w_act; [eapply up_now; eauto|]. intros M5' tv5' U5'. apply do_max_wrtn; [eapply up_pub; eauto|apply U5'|]. intros M6 x tv6 A6 B6 C6 D6 W6. apply w_ret. apply w_ret.
    assert (U6 : up M5 tv5 M6 tv6) by (eapply up_trans; [exact U5'|]; apply mk_up; auto; apply U5'). apply H; [|eapply up_pub; eauto|assumption|].
    - eauto 10 using up_trans.
    - intros n' Hn. specialize (W1 n'). assert (n' <= n); [|lia]. apply W1. eapply seen_wrtn_up; eauto using vle_refl; eapply up_wrtn; eauto.
  Qed.

  Lemma w_reserved (Q : nat -> _ -> _ -> _ -> Prop) L M tv :
    now M tv -> (forall n M' tv', up M tv M' tv' -> n <= capv M' tv' -> (forall n', seen_resv M tv n' -> n' <= capv M tv -> n' <= n) -> Q n L M' tv') -> wp Q reserved_len L M tv.
  Proof.
    intros N H. apply w_bind. apply w_resv; [assumption|]. intros n M1 tv1 U1 X1 Y1. apply w_bind. apply w_cap; [eapply up_now; eauto|]. intros c M2 tv2 U2 X2 Y2.
    apply w_ret. apply H; [eapply up_trans; eauto|destruct (Nat.leb_spec n c); lia|]. intros n' Hn Hc. pose proof (Y1 _ Hn). pose proof (up_cap _ _ _ _ U1). destruct (Nat.leb_spec n c); lia.
  Qed.

  (** ** Elements *)
  Lemma w_handle (Q : bool -> _ -> _ -> _ -> Prop) i L M tv :
    now M tv -> i < capv M tv ->
    (forall M' tv', up M tv M' tv' -> ~ In i (t_l L) -> seen_some M' tv' i -> Q true (lock i L) M' tv') ->
    (forall M' tv', up M tv M' tv' -> ~ seen_some M tv i -> Q false L M' tv') -> wp Q (spin_handle i SOME) L M tv.
  Proof.
    intros N Hi HT HF. unfold spin_handle. apply w_spin; [assumption|]. intros M0 tv0 U0. destruct (up_now _ _ _ _ U0) as [G O]. pose proof (up_cap _ _ _ _ U0).
    apply do_cas; auto; [lia| |].
    - intros M' tv' A B C D F H'. apply w_ret. apply HT; auto. eapply up_trans; [exact U0|now apply mk_up].
    - intros M' tv' x A B C D N' S. destruct x; simpl; [right|now left|congruence]. split; [reflexivity|]. apply w_ret. apply HF; [eapply up_trans; [exact U0|now apply mk_up]|]. intros X. apply S; [eapply up_some; eauto|reflexivity].
  Qed.
  Lemma w_try (Q : bool -> _ -> _ -> _ -> Prop) i L M tv :
    now M tv -> i < capv M tv ->
    (forall M' tv', up M tv M' tv' -> ~ In i (t_l L) -> Q true (lock i L) M' tv') ->
    (forall M' tv', up M tv M' tv' -> Q false L M' tv') -> wp Q (option_mut_handle E i SOME) L M tv.
  Proof.
    intros N Hi HT HF. unfold option_mut_handle. destruct (hspin E); [apply w_handle; auto|]. apply w_bind. apply w_act; [assumption|]. intros M0 tv0 U0. destruct (up_now _ _ _ _ U0) as [G O]. pose proof (up_cap _ _ _ _ U0).
    apply do_cas; auto; [lia| |].
    - intros M' tv' A B C D F H'. apply w_ret. apply w_ret. apply HT; auto. eapply up_trans; [exact U0|now apply mk_up].
    - intros M' tv' x A B C D _ S. right. split; [reflexivity|]. apply w_ret. apply w_ret. apply HF. eapply up_trans; [exact U0|now apply mk_up].
  Qed.
  Lemma w_drop (Q : unit -> _ -> _ -> _ -> Prop) i L M tv :
    now M tv -> i < capv M tv -> ~ In i (t_l L) -> (forall M' tv', up M tv M' tv' -> Q tt L M' tv') -> wp Q (drop_handle i SOME) (lock i L) M tv.
  Proof.
    intros N Hi Ni H. apply w_act; [assumption|]. intros M0 tv0 U0. destruct (up_now _ _ _ _ U0) as [G O]. pose proof (up_cap _ _ _ _ U0).
    apply do_unlock; auto; [lia|]. intros M' tv' A B C D. apply w_ret. apply H. eapply up_trans; [exact U0|now apply mk_up].
  Qed.
  Lemma w_rd_beg {R} (Q : R -> _ -> _ -> _ -> Prop) k i L M tv :
    now M tv -> i < capv M tv -> In i (t_l L) -> (forall M' tv', up M tv M' tv' -> wp Q (k tt) L M' tv') -> wp Q (Act (RdBeg i) k) L M tv.
  Proof.
    intros N Hi Ni H. apply w_act; [assumption|]. intros M0 tv0 U0. destruct (up_now _ _ _ _ U0) as [G O]. pose proof (up_cap _ _ _ _ U0).
    apply do_rd_beg; [lia|assumption|now left|]. intros M' A B D. apply H. eapply up_trans; [exact U0|]. apply mk_up; auto using vle_refl.
  Qed.
  Lemma w_rd_end {R} (Q : R -> _ -> _ -> _ -> Prop) k i L M tv :
    now M tv -> i < capv M tv -> In i (t_l L) -> (forall v M' tv', up M tv M' tv' -> wv (sl M' i) = Some v -> wp Q (k v) L M' tv') -> wp Q (Act (RdEnd i) k) L M tv.
  Proof.
    intros N Hi Ni H. apply w_act; [assumption|]. intros M0 tv0 U0. destruct (up_now _ _ _ _ U0) as [G O]. pose proof (up_cap _ _ _ _ U0).
    apply do_rd_end; [lia|assumption|now left|]. intros v M' tv' A B C D F. apply H; [|assumption]. eapply up_trans; [exact U0|now apply mk_up].
  Qed.
  Lemma w_wr_beg {R} (Q : R -> _ -> _ -> _ -> Prop) k i L M tv :
    now M tv -> i < capv M tv -> In i (t_l L) -> ro = false -> (forall M' tv', up M tv M' tv' -> wp Q (k tt) L M' tv') -> wp Q (Act (WrBeg i) k) L M tv.
  Proof.
    intros N Hi Ni Ro H. apply w_act; [assumption|]. intros M0 tv0 U0. destruct (up_now _ _ _ _ U0) as [G O]. pose proof (up_cap _ _ _ _ U0).
    apply do_wr_beg; [lia|assumption|assumption|assumption|]. intros M' A B D. apply H. eapply up_trans; [exact U0|]. apply mk_up; auto using vle_refl.
  Qed.
  Lemma w_wr_end {R} (Q : R -> _ -> _ -> _ -> Prop) k i f L M tv :
    now M tv -> i < capv M tv -> In i (t_l L) -> ro = false -> (forall v M' tv', up M tv M' tv' -> wp Q (k v) L M' tv') -> wp Q (Act (WrEnd i f) k) L M tv.
  Proof.
    intros N Hi Ni Ro H. apply w_act; [assumption|]. intros M0 tv0 U0. destruct (up_now _ _ _ _ U0) as [G O]. pose proof (up_cap _ _ _ _ U0).
    apply do_wr_end; [lia|assumption|assumption|assumption|]. intros v M' tv' A B C D. apply H. eapply up_trans; [exact U0|now apply mk_up].
  Qed.

  Lemma w_map {U} (f : V -> option U) (Q : option U -> _ -> _ -> _ -> Prop) i L M tv :
    now M tv -> i < capv M tv -> clean L ->
    (forall v u M' tv', up M tv M' tv' -> f v = Some u -> (ro = true -> wv (sl M' i) = Some v) -> seen_some M' tv' i -> Q (Some u) L M' tv') ->
    (forall M' tv', up M tv M' tv' -> ~ seen_some M tv i -> Q None L M' tv') -> wp Q (option_map i f) L M tv.
  Proof.
    intros N Hi Cl HT HF. apply w_bind. apply w_handle; [assumption|assumption| |intros; apply w_ret; auto]. intros M1 tv1 U1 Ni S1. pose proof (up_cap _ _ _ _ U1) as C1.
    apply w_bind. apply w_rd_beg; [eapply up_now; eauto|lia|now left|]. intros M2 tv2 U2. apply w_ret. pose proof (up_cap _ _ _ _ U2) as C2.
    apply w_bind. apply w_rd_end; [eapply up_now; eauto|lia|now left|]. intros v M3 tv3 U3 V3. apply w_ret. pose proof (up_cap _ _ _ _ U3) as C3.
    apply w_bind. apply w_drop; [eapply up_now; eauto|lia|assumption|]. intros M4 tv4 U4.
    assert (U13 : up M tv M4 tv4) by (eauto 10 using up_trans).
    destruct (f v) as [u|] eqn:Q1; [|apply w_pan; [unfold badp; intuition discriminate|assumption]]. apply w_ret. eapply HT; eauto.
    - intros R. rewrite <- V3. apply (up_val _ _ _ _ i U4 R). congruence.
    - eapply up_some; [|exact S1]. eauto using up_trans.
  Qed.
  Lemma w_elem_map {U} (f : V -> option U) (Q : U -> _ -> _ -> _ -> Prop) i L M tv :
    now M tv -> avail M tv i -> clean L ->
    (forall v u M' tv', up M tv M' tv' -> f v = Some u -> (ro = true -> wv (sl M' i) = Some v) -> Q u L M' tv') -> wp Q (elem_map i f) L M tv.
  Proof.
    intros N [Hi S] Cl H. apply w_bind. apply w_map; auto; [|intros; contradiction]. intros v u M' tv' U' A B C. apply w_ret. eauto.
  Qed.
  Lemma w_cloned (Q : V -> _ -> _ -> _ -> Prop) i L M tv :
    now M tv -> avail M tv i -> clean L -> (forall v M' tv', up M tv M' tv' -> (ro = true -> wv (sl M' i) = Some v) -> Q v L M' tv') -> wp Q (elem_cloned i) L M tv.
  Proof.
    intros N [Hi S] Cl H. apply w_bind. apply w_map; auto; [|intros; contradiction]. intros v u M' tv' U' A B C. injection A as <-. apply w_ret. eauto.
  Qed.
  Lemma w_elem_eq (Q : bool -> _ -> _ -> _ -> Prop) i v L M tv :
    now M tv -> avail M tv i -> clean L -> (forall b M' tv', up M tv M' tv' -> Q b L M' tv') -> wp Q (elem_eq E i v) L M tv.
  Proof. intros N A Cl H. apply w_elem_map; auto. Qed.

  (** a write access behind the handle *)
  Lemma w_write f (R : Type) (k : V -> prog R) (q : prog R) (Q : R -> _ -> _ -> _ -> Prop) i L M tv :
    now M tv -> avail M tv i -> clean L -> ro = false ->
    (forall v M' tv', up M tv M' tv' -> wp Q (k v) L M' tv') ->
    wp Q (bind (spin_handle i SOME) (fun h => if h : bool then bind (doo (WrBeg i)) (fun _ => bind (doo (WrEnd i f)) (fun old => bind (drop_handle i SOME) (fun _ => k old))) else q)) L M tv.
  Proof.
    intros N [Hi S] Cl Ro H. apply w_bind. apply w_handle; [assumption|assumption| |intros; contradiction]. intros M1 tv1 U1 Ni S1. pose proof (up_cap _ _ _ _ U1) as C1.
    apply w_bind. apply w_wr_beg; [eapply up_now; eauto|lia|now left|assumption|]. intros M2 tv2 U2. apply w_ret. pose proof (up_cap _ _ _ _ U2) as C2.
    apply w_bind. apply w_wr_end; [eapply up_now; eauto|lia|now left|assumption|]. intros v M3 tv3 U3. apply w_ret. pose proof (up_cap _ _ _ _ U3) as C3.
    apply w_bind. apply w_drop; [eapply up_now; eauto|lia|assumption|]. intros M4 tv4 U4. apply H. eauto 10 using up_trans.
  Qed.
  Lemma w_replace (Q : V -> _ -> _ -> _ -> Prop) i v L M tv :
    now M tv -> avail M tv i -> clean L -> ro = false -> (forall w M' tv', up M tv M' tv' -> Q w L M' tv') -> wp Q (elem_replace i v) L M tv.
  Proof. intros N A Cl R H. apply w_bind. unfold option_replace. apply w_write; auto. Qed.
  Lemma w_set (Q : unit -> _ -> _ -> _ -> Prop) i v L M tv :
    now M tv -> avail M tv i -> clean L -> ro = false -> (forall M' tv', up M tv M' tv' -> Q tt L M' tv') -> wp Q (elem_set i v) L M tv.
  Proof. intros N A Cl R H. apply w_bind. unfold option_set_some. apply w_write; auto. Qed.
  Lemma w_update (Q : unit -> _ -> _ -> _ -> Prop) i f L M tv :
    now M tv -> avail M tv i -> clean L -> ro = false -> (forall M' tv', up M tv M' tv' -> Q tt L M' tv') -> wp Q (elem_update i f) L M tv.
  Proof.
    intros N A Cl R H. apply w_bind. unfold option_update. apply w_write; auto. intros w M' tv' U. destruct (snd (f w)); [|apply w_pan; [unfold badp; intuition discriminate|assumption]].
    apply w_ret. apply w_ret. auto.
  Qed.

  (** ** Loops *)
  Lemma w_mapP {A B} (f : A -> prog B) (P : A -> wmem -> view -> Prop) (R : B -> wmem -> view -> Prop) L :
    (forall a M tv M' tv', up M tv M' tv' -> P a M tv -> P a M' tv') -> (forall b M tv M' tv', good M -> up M tv M' tv' -> R b M tv -> R b M' tv') ->
    (forall a M tv (Q : B -> _ -> _ -> _ -> Prop), now M tv -> P a M tv -> (forall b M' tv', up M tv M' tv' -> R b M' tv' -> Q b L M' tv') -> wp Q (f a) L M tv) ->
    forall l M tv (Q : list B -> _ -> _ -> _ -> Prop), now M tv -> (forall a, In a l -> P a M tv) ->
      (forall bs M' tv', up M tv M' tv' -> (forall b, In b bs -> R b M' tv') -> Q bs L M' tv') -> wp Q (mapP f l) L M tv.
  Proof.
    intros HP HR Hf. induction l as [|a l IH]; intros M tv Q N Hl H.
    - apply w_ret. apply H; [now apply up_refl|contradiction].
    - apply w_bind. apply Hf; auto; [apply Hl; now left|]. intros b M1 tv1 U1 R1. apply w_bind. apply IH; [eapply up_now; eauto|intros x Hx; eapply HP; eauto; apply Hl; now right|].
      intros bs M2 tv2 U2 R2. apply w_ret. apply H; [eapply up_trans; eauto|]. intros x [<-|Hx]; [|auto]. eapply HR; eauto. apply U1.
  Qed.
  Lemma w_foldP {A B} (f : B -> A -> prog B) (P : A -> wmem -> view -> Prop) L :
    (forall a M tv M' tv', up M tv M' tv' -> P a M tv -> P a M' tv') ->
    (forall x a M tv (Q : B -> _ -> _ -> _ -> Prop), now M tv -> P a M tv -> (forall b M' tv', up M tv M' tv' -> Q b L M' tv') -> wp Q (f x a) L M tv) ->
    forall l x M tv (Q : B -> _ -> _ -> _ -> Prop), now M tv -> (forall a, In a l -> P a M tv) ->
      (forall b M' tv', up M tv M' tv' -> Q b L M' tv') -> wp Q (foldP f x l) L M tv.
  Proof.
    intros HP Hf. induction l as [|a l IH]; intros x M tv Q N Hl H.
    - apply w_ret. apply H. now apply up_refl.
    - apply w_bind. apply Hf; auto; [apply Hl; now left|]. intros b M1 tv1 U1. apply IH; [eapply up_now; eauto|intros y Hy; eapply HP; eauto; apply Hl; now right|].
      intros c M2 tv2 U2. apply H. eapply up_trans; eauto.
  Qed.
  Definition av (i : nat) M tv := avail M tv i.
  Lemma av_up a M tv M' tv' : up M tv M' tv' -> av a M tv -> av a M' tv'.
  Proof. apply up_avail. Qed.
  Definition tr {A} (a : A) M tv : Prop := True.

  Lemma w_fill (Q : unit -> _ -> _ -> _ -> Prop) l v L M tv :
    now M tv -> (forall i, In i l -> avail M tv i) -> clean L -> ro = false -> (forall M' tv', up M tv M' tv' -> Q tt L M' tv') -> wp Q (fill_elems l v) L M tv.
  Proof.
    intros N Hl Cl R H. apply (w_foldP _ av L av_up); auto; [|intros []; auto]. intros x a M1 tv1 Q1 N1 A1 H1. apply w_set; auto.
  Qed.
  Lemma w_fill_with (Q : unit -> _ -> _ -> _ -> Prop) f L : clean L -> ro = false -> forall l k M tv,
    now M tv -> (forall i, In i l -> avail M tv i) -> (forall M' tv', up M tv M' tv' -> Q tt L M' tv') -> wp Q (fill_elems_with k l f) L M tv.
  Proof.
    intros Cl R. induction l as [|i l IH]; intros k M tv N Hl H.
    - apply w_ret. apply H. now apply up_refl.
    - apply w_bind. apply w_chk; [unfold badp; intuition discriminate|]. intros y _. apply w_bind. apply w_set; auto; [apply Hl; now left|]. intros M1 tv1 U1.
      apply IH; [eapply up_now; eauto|intros j Hj; eapply up_avail; eauto; apply Hl; now right|]. intros. apply H. eapply up_trans; eauto.
  Qed.
  Lemma w_position (Q : option nat -> _ -> _ -> _ -> Prop) v L : clean L -> forall l k M tv,
    now M tv -> (forall i, In i l -> avail M tv i) -> (forall o M' tv', up M tv M' tv' -> Q o L M' tv') -> wp Q (position E k l v) L M tv.
  Proof.
    intros Cl. induction l as [|i l IH]; intros k M tv N Hl H.
    - apply w_ret. apply H. now apply up_refl.
    - apply w_bind. apply w_elem_eq; auto; [apply Hl; now left|]. intros b M1 tv1 U1. destruct b; [apply w_ret; auto|].
      apply IH; [eapply up_now; eauto|intros j Hj; eapply up_avail; eauto; apply Hl; now right|]. intros. apply H. eapply up_trans; eauto.
  Qed.
  Lemma w_map_elems {U} L : clean L -> forall l (Q : list U -> _ -> _ -> _ -> Prop) (f : nat -> V -> option U) M tv,
    now M tv -> (forall i, In i l -> avail M tv i) -> (forall r M' tv', up M tv M' tv' -> Q r L M' tv') -> wp Q (map_elems l f) L M tv.
  Proof.
    intros Cl. induction l as [|i l IH]; intros Q f M tv N Hl H.
    - apply w_ret. apply H. now apply up_refl.
    - apply w_bind. apply w_elem_map; auto; [apply Hl; now left|]. intros v b M1 tv1 U1 _ _. apply w_bind.
      apply IH; [eapply up_now; eauto|intros j Hj; eapply up_avail; eauto; apply Hl; now right|]. intros r M2 tv2 U2. apply w_ret. apply H. eapply up_trans; eauto.
  Qed.
  Lemma w_clone_elems (Q : list V -> _ -> _ -> _ -> Prop) l L M tv :
    now M tv -> (forall i, In i l -> avail M tv i) -> clean L -> (forall r M' tv', up M tv M' tv' -> Q r L M' tv') -> wp Q (mapP elem_cloned l) L M tv.
  Proof.
    intros N Hl Cl H. apply (w_mapP _ av tr L av_up); auto. intros a M1 tv1 Q1 N1 A1 H1. apply w_cloned; auto. intros. apply H1; auto. exact I.
  Qed.
  Lemma w_filter L : clean L -> forall l f (Q : list nat -> _ -> _ -> _ -> Prop) M tv,
    now M tv -> (forall i, In i l -> avail M tv i) -> (forall r M' tv', up M tv M' tv' -> (forall i, In i r -> avail M' tv' i) -> Q r L M' tv') -> wp Q (filter_elems l f) L M tv.
  Proof.
    intros Cl. induction l as [|i l IH]; intros f Q M tv N Hl H.
    - apply w_ret. apply H; [now apply up_refl|contradiction].
    - apply w_bind. apply w_elem_map; auto; [apply Hl; now left|]. intros v b M1 tv1 U1 _ _. apply w_bind.
      apply IH; [eapply up_now; eauto|intros j Hj; eapply up_avail; eauto; apply Hl; now right|]. intros r M2 tv2 U2 R2. apply w_ret. apply H; [eapply up_trans; eauto|].
      intros j Hj. destruct b; [destruct Hj as [<-|Hj]|]; auto. eapply up_avail; [|apply Hl; now left]. eapply up_trans; eauto.
  Qed.
  Lemma w_fold_elems {U} (Q : U -> _ -> _ -> _ -> Prop) L : clean L -> forall l init (f : nat -> U -> V -> option U) M tv,
    now M tv -> (forall i, In i l -> avail M tv i) -> (forall r M' tv', up M tv M' tv' -> Q r L M' tv') -> wp Q (fold_elems l init f) L M tv.
  Proof.
    intros Cl. induction l as [|i l IH]; intros init f M tv N Hl H.
    - apply w_ret. apply H. now apply up_refl.
    - apply w_bind. apply w_elem_map; auto; [apply Hl; now left|]. intros v b M1 tv1 U1 _ _.
      apply IH; [eapply up_now; eauto|intros j Hj; eapply up_avail; eauto; apply Hl; now right|]. intros r M2 tv2 U2. apply H. eapply up_trans; eauto.
  Qed.
  Lemma w_eq_list L : clean L -> forall l vs (Q : bool -> _ -> _ -> _ -> Prop) M tv,
    now M tv -> (forall i, In i l -> avail M tv i) -> (forall r M' tv', up M tv M' tv' -> Q r L M' tv') -> wp Q (eq_elems_list E l vs) L M tv.
  Proof.
    intros Cl. induction l as [|i l IH]; intros [|v vs] Q M tv N Hl H; try (apply w_ret; apply H; now apply up_refl).
    apply w_bind. destruct (Hl i) as [A B]; [now left|]. apply w_map; auto; [|intros; contradiction]. intros w b M1 tv1 U1 _ _ _.
    destruct b; [|apply w_ret; auto]. apply IH; [eapply up_now; eauto|intros j Hj; eapply up_avail; eauto; apply Hl; now right|]. intros. apply H. eapply up_trans; eauto.
  Qed.
  Lemma w_fmt (Q : list (piece V) -> _ -> _ -> _ -> Prop) l L M tv :
    now M tv -> (forall i, In i l -> avail M tv i) -> clean L -> (forall r M' tv', up M tv M' tv' -> Q r L M' tv') -> wp Q (fmt_elems l) L M tv.
  Proof.
    intros N Hl Cl H. destruct l as [|i l]; [apply w_ret; apply H; now apply up_refl|]. apply w_bind. apply w_elem_map; auto; [apply Hl; now left|]. intros v b M1 tv1 U1 _ _.
    apply w_bind. apply (w_mapP _ av tr L av_up); [now unfold tr| |eapply up_now; eauto|intros j Hj; eapply up_avail; eauto; apply Hl; now right|].
    - intros a M2 tv2 Q2 N2 A2 H2. apply w_elem_map; auto. intros. apply H2; auto. exact I.
    - intros bs M2 tv2 U2 _. apply w_ret. apply H. eapply up_trans; eauto.
  Qed.

  (** references to values *)
  Lemma w_is_some (Q : bool -> _ -> _ -> _ -> Prop) i L M tv :
    now M tv -> i < capv M tv -> (forall b M' tv', up M tv M' tv' -> (b = true -> gok M' tv' (GRef i)) -> Q b L M' tv') -> wp Q (is_some_with_order i SeqCst) L M tv.
  Proof.
    intros N Hi H. apply w_bind. apply w_act; [assumption|]. intros M0 tv0 U0. destruct (up_now _ _ _ _ U0) as [G O]. pose proof (up_cap _ _ _ _ U0).
    apply do_load_st; auto; [lia|]. intros M1 x tv1 A B D F H1 H2 H3 _. assert (U : up M tv M1 tv1) by (eapply up_trans; [exact U0|now apply mk_up]).
    apply w_ret. apply w_ret. apply H; auto. intros e. destruct (st_eqb_spec x SOME) as [->|]; [|discriminate]. split; [split; [pose proof (up_cap _ _ _ _ U); lia|apply H2; discriminate]|].
    intros R. apply H3; auto; discriminate.
  Qed.
  Lemma w_refs L : forall l (Q : list nat -> _ -> _ -> _ -> Prop) M tv,
    now M tv -> (forall i, In i l -> i < capv M tv) -> (forall r M' tv', up M tv M' tv' -> (forall i, In i r -> gok M' tv' (GRef i)) -> Q r L M' tv') -> wp Q (refs_of l) L M tv.
  Proof.
    induction l as [|i l IH]; intros Q M tv N Hl H.
    - apply w_ret. apply H; [now apply up_refl|contradiction].
    - apply w_bind. apply w_is_some; auto; [apply Hl; now left|]. intros b M1 tv1 U1 G1. apply w_bind. apply IH; [eapply up_now; eauto| |].
      + intros j Hj. pose proof (up_cap _ _ _ _ U1). specialize (Hl j (or_intror Hj)). lia.
      + intros r M2 tv2 U2 R2. apply w_ret. apply H; [eapply up_trans; eauto|]. intros j Hj. destruct b; [destruct Hj as [<-|Hj]|]; auto.
        eapply gok_up; eauto. apply U1.
  Qed.
  Lemma w_get_ref (Q : option nat -> _ -> _ -> _ -> Prop) i L M tv :
    now M tv -> (forall o M' tv', up M tv M' tv' -> (forall e, o = Some e -> gok M' tv' (GRef e)) -> Q o L M' tv') -> wp Q (vec_get_ref i) L M tv.
  Proof.
    intros N H. apply w_bind. apply w_reserved; auto. intros n M1 tv1 U1 C1 _. destruct (Nat.ltb_spec i n); [|apply w_ret; apply H; auto; discriminate].
    apply w_bind. apply w_core_get; [eapply up_now; eauto| |].
    - intros M2 tv2 U2 C2. apply w_bind. apply w_is_some; [eapply up_now; eauto|assumption|]. intros b M3 tv3 U3 G3. apply w_ret. apply H; [eauto using up_trans|].
      destruct b; intros e X; [injection X as <-; auto|discriminate].
    - intros M2 tv2 U2 _. apply w_ret. apply H; [eauto using up_trans|discriminate].
  Qed.
  Lemma w_deref (Q : V -> _ -> _ -> _ -> Prop) i L M tv :
    now M tv -> gok M tv (GRef i) -> ro = true -> (forall v M' tv', up M tv M' tv' -> wv (sl M' i) = Some v -> Q v L M' tv') -> wp Q (deref i) L M tv.
  Proof.
    intros N GR R H. apply w_bind. apply w_act; [assumption|]. intros M0 tv0 U0. destruct (up_now _ _ _ _ U0) as [G O].
    destruct (gok_up _ _ _ _ (GRef i) U0 (proj1 N) GR) as [[A S] B]. specialize (B R). pose proof (some_val _ _ _ G S) as X.
    apply do_rd_beg; auto; [right; auto|]. intros M1 A1 B1 C1. apply w_ret.
    assert (U1 : up M0 tv0 M1 tv0) by (apply mk_up; auto using vle_refl).
    apply w_act; [eapply up_now; eauto|]. intros M1' tv1' U1'. assert (U2 : up M0 tv0 M1' tv1') by eauto using up_trans. clear X S A B.
    destruct (gok_up _ _ _ _ (GRef i) (up_trans _ _ _ _ _ _ U0 U2) (proj1 N) GR) as [[A S] B]. specialize (B R). destruct (up_now _ _ _ _ U2) as [G2 O2]. pose proof (some_val _ _ _ G2 S) as X.
    apply do_rd_end; auto; [right; auto|]. intros v M2 tv2 A2 B2 C2 D2 V2. apply w_ret. apply H; [|assumption]. eapply up_trans; [exact U0|]. eapply up_trans; [exact U2|]. now apply mk_up.
  Qed.
End WSpecs.
