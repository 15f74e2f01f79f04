(** * Who waits for whom in the view machine, and which calls end. *)

From Coq Require Import List Arith Bool Lia.
From Verif.Model Require Import Prog Mem Deps State Elem Vec Excl Machine.
From Verif Require Import Client.
From Verif Require Fair.
From Verif.Logic Require Import Shape Clients Locks Progress Cost.
From Verif.RA Require Import Weak WFair WInv WStep WSlots WSpecs WOps WSound WLocks.
Import ListNotations.
Local Arguments Nat.leb : simpl never.
Local Arguments Nat.ltb : simpl never.
Local Arguments Nat.eqb : simpl never.
Local Arguments Nat.add : simpl never.
Local Arguments Nat.sub : simpl never.
Local Arguments Nat.max : simpl never.
Local Arguments Nat.modulo : simpl never.
Local Notation latest := Weak.latest.

Section WLive.
  Context {V : Type} (E : env V) (ro : bool).
  Hypothesis EOK : env_ok E.
  Notation wmem := (wmem V).
  Notation SI := (SI E ro).
  Notation BI := (BI E).
  Notation WI := (WI E ro).
  Notation world := (world E ro).
  Notation waits := (WFair.waits E).
  Notation goes_on := (WFair.goes_on E).
  Notation calm := Locks.calm.
  Implicit Types (c : wcfg V) (M : wmem) (g : nat -> wgst) (f : nat -> list nat * nat) (p : prog V (ret V)) (x z : wcall V).

  (** ** Where a program waits *)
  Definition blocked M p : Prop :=
    match p with
    | Spin a ag _ =>
        match a as a' return (res a' -> bool) -> Prop with
        | CasSt i SOME RESERVED => fun ag => top (ws (sl M i)) = RESERVED /\ ag (false, RESERVED) = true
        | LoadCap => fun ag => ag (latest (m_cap M)) = true
        | _ => fun _ => False
        end ag
    | _ => False
    end.

  (** the loops of a running program *)
  Definition spins p : Prop := match p with Spin a ag _ => exists b, loop_ok b a ag | _ => True end.
  Lemma world_spins c g f t x : world c g f -> wlookup t (w_run c) = Some x -> spins (wc_prog x).
  Proof.
    intros (_ & _ & Hi) Lk. unfold spins. destruct (h_base _ _ _ _ Hi t x Lk) as [[Gr Hx]|[(Gr & b & _ & Lo)|[Gr Lo]]].
    - destruct (grow_shape E (wc_op x) Gr) as (k' & Hk & _). rewrite Hk in Hx. rewrite Hx. exact I.
    - destruct (wc_prog x); try exact I. exists b. apply Lo.
    - destruct (wc_prog x); try exact I. exists 0. apply Lo.
  Qed.

  (** what a step of a call changes *)
  Definition moved c (t : nat) x c' : Prop :=
    (forall u, u <> t -> wlookup u (w_run c') = wlookup u (w_run c)) /\
    ((exists q, wlookup t (w_run c') = Some (WCall (wc_id x) (wc_op x) (wc_from x) q) /\ child q (wc_prog x) /\ w_panics c' = w_panics c) \/
     (wlookup t (w_run c') = None /\ (w_panics c' = w_panics c \/ exists m, w_panics c' = w_panics c ++ [(wc_id x, wc_op x, m)]))).
  Lemma moved_ne c t x c' : wlookup t (w_run c) = Some x -> moved c t x c' -> c' <> c.
  Proof.
    intros Lk [_ [(q & Lq & C & _)|[Lq _]]] ->; rewrite Lk in Lq; [|discriminate]. injection Lq as Lq.
    apply (f_equal wc_prog) in Lq. simpl in Lq. rewrite Lq in C. pose proof (no_loop q) as NL.
    destruct q as [r|m|a k|a ag k]; simpl in C; try contradiction; destruct C as (y & e); apply (NL y); symmetry; exact e.
  Qed.
  Lemma step_moved c t k x c' : NI c -> wlookup t (w_run c) = Some x -> wstep E c (WStep t k) = WNext c' -> c' = c \/ moved c t x c'.
  Proof.
    intros N Lk St. simpl in St. unfold wstep_thread in St. rewrite Lk in St. pose proof (ni_nd _ N) as Nd.
    assert (A : forall q M tv, child q (wc_prog x) -> moved c t x (wafter t c x q M tv)).
    { intros q M tv C. split.
      - intros u Ne. simpl. destruct (Nat.eqb_spec u t); [contradiction|]. now apply wlook_other.
      - left. exists q. simpl. rewrite Nat.eqb_refl. auto. }
    destruct (wc_prog x) as [r|m|a kk|a ag kk] eqn:Hp.
    - injection St as <-. right. split; simpl; [intros u Ne; now apply wlook_other|]. right. split; [now apply wlook_same|]. now left.
    - injection St as <-. right. split; simpl; [intros u Ne; now apply wlook_other|]. right. split; [now apply wlook_same|]. right. now exists m.
    - destruct (wexec E (wc_id x) a k (w_mem c) (w_view c t)) as [y M tv| |]; try discriminate. injection St as <-. right. apply A. now exists y.
    - destruct (wexec E (wc_id x) a k (w_mem c) (w_view c t)) as [y M tv| |]; try discriminate. destruct (ag y); injection St as <-; [now left|]. right. apply A. now exists y.
  Qed.

  (** a thread that reads the newest message waits exactly where its program is blocked *)
  Lemma front_step c g f t x : world c g f -> wlookup t (w_run c) = Some x ->
    (blocked (w_mem c) (wc_prog x) /\ waits c t) \/
    (~ blocked (w_mem c) (wc_prog x) /\ exists c', wstep E c (WStep t (front c t)) = WNext c' /\ moved c t x c').
  Proof.
    intros Wo Lk. pose proof (world_spins _ _ _ _ _ Wo Lk) as Sp. destruct Wo as (S & B & Hi). pose proof (si_ni _ _ _ _ S) as N.
    pose proof (client_step E ro EOK c g (WStep t (front c t)) S B I) as Cs.
    assert (Hf : front c t = match wc_prog x with Act a _ | Spin a _ _ => newest a (w_mem c) | _ => 0 end) by (unfold front; now rewrite Lk).
    unfold WFair.waits.
    destruct (wstep E c (WStep t (front c t))) as [c'|fl|] eqn:St; [|contradiction|].
    - pose proof St as St0. rewrite Hf in St. simpl in St. unfold wstep_thread in St. rewrite Lk in St.
      destruct (wc_prog x) as [r|m|a kk|a ag kk] eqn:Hp.
      1-3: right; split; [intros []|]; exists c'; split; [reflexivity|]; destruct (step_moved c t _ x c' N Lk St0) as [->|Mv]; [exfalso|exact Mv].
      + injection St as St. apply (f_equal (fun d => wlookup t (w_run d))) in St. simpl in St. rewrite wlook_same in St by apply N. congruence.
      + injection St as St. apply (f_equal (fun d => wlookup t (w_run d))) in St. simpl in St. rewrite wlook_same in St by apply N. congruence.
      + destruct (wexec E (wc_id x) a _ (w_mem c) (w_view c t)) as [y M tv| |]; try discriminate. injection St as St.
        apply (f_equal (fun d => wlookup t (w_run d))) in St. simpl in St. rewrite Nat.eqb_refl, Lk in St. injection St as St. apply (f_equal wc_prog) in St. simpl in St.
        pose proof (no_loop (wc_prog x)) as NL. rewrite Hp in NL. now apply (NL y); rewrite <- Hp.
      + destruct (wexec E (wc_id x) a (newest a (w_mem c)) (w_mem c) (w_view c t)) as [y M tv| |] eqn:Ex; try discriminate. destruct Sp as (b & Lo).
        assert (K : blocked (w_mem c) (Spin a ag kk) <-> ag y = true).
        { clear - Lo Ex. destruct a as [| | | | | | |i e n| | | | | | | | | | |]; try (destruct Lo; fail); simpl in Lo; cbn [blocked wexec newest] in *.
          - unfold latest. destruct (nth_error (m_cap (w_mem c)) (last_ts (m_cap (w_mem c)))) as [m|]; [|discriminate]. destruct (_ <=? _); [|discriminate]. injection Ex as <- _ _. reflexivity.
          - destruct e; try (destruct Lo; fail). destruct n; try (destruct Lo; fail). unfold with_wslot in Ex. destruct (i <? _); [|discriminate]. unfold top, sl.
            destruct (nth_error (ws (m_slots (w_mem c) i)) (last_ts (ws (m_slots (w_mem c) i)))) as [m|]; [|discriminate]. destruct (_ <=? _); [|discriminate].
            destruct (mval m) eqn:Hm; cbn [st_eqb] in Ex.
            + injection Ex as <- _ _. split; [intros [X _]; discriminate|]. intros X. destruct (Lo _ X). discriminate.
            + injection Ex as <- _ _. tauto.
            + destruct (nth_error (ws (m_slots (w_mem c) i)) _) as [m'|]; [destruct (mrmw m'); discriminate|]. injection Ex as <- _ _. split; [intros [X _]; discriminate|]. intros X. destruct (Lo _ X). discriminate. }
        destruct (ag y) eqn:Ag.
        * left. split; [now apply K|]. congruence.
        * right. split; [intros X; apply K in X; discriminate|]. exists c'. split; [reflexivity|]. destruct (step_moved c t _ x c' N Lk St0) as [->|Mv]; [exfalso|exact Mv].
          injection St as St. apply (f_equal (fun d => wlookup t (w_run d))) in St. simpl in St. rewrite Nat.eqb_refl, Lk in St. injection St as St. apply (f_equal wc_prog) in St. simpl in St.
          pose proof (no_loop (wc_prog x)) as NL. rewrite Hp in NL. now apply (NL y); rewrite <- Hp.
    - exfalso. rewrite Hf in St. simpl in St. unfold wstep_thread in St. rewrite Lk in St. pose proof (si_view _ _ _ _ S t) as Vo. pose proof (si_wi _ _ _ _ S) as W.
      destruct (wc_prog x) as [r|m|a kk|a ag kk] eqn:Hp; try discriminate; pose proof (exec_enabled E ro (wc_id x) a _ _ _ W Vo) as En;
        destruct (wexec E (wc_id x) a _ (w_mem c) (w_view c t)) as [y M tv| |]; try discriminate; try congruence. destruct (ag y); discriminate.
  Qed.

  (** ** Who holds the first position beyond the capacity *)
  Lemma between (l : list (msg nat)) n : forall K, (forall m, nth_error l 0 = Some m -> mval m <= n) -> (exists m, nth_error l K = Some m /\ n < mval m) ->
    exists k m m', nth_error l k = Some m /\ nth_error l (Datatypes.S k) = Some m' /\ mval m <= n < mval m'.
  Proof.
    induction K as [|K IH]; intros H0 (m & Hm & Lt); [apply H0 in Hm; lia|].
    destruct (nth_error l K) as [m'|] eqn:Q.
    - destruct (Nat.le_gt_cases (mval m') n) as [Le|Gt]; [exists K, m', m; auto|]. apply IH; eauto.
    - apply nth_error_None in Q. assert (Datatypes.S K < length l) by (apply nth_error_Some; congruence). lia.
  Qed.
  Lemma cap_msgs M g j m : WI M g -> nth_error (m_cap M) j = Some m -> mval m <= latest (m_cap M).
  Proof.
    intros W Hj. unfold latest, last_ts. assert (j < length (m_cap M)) by (apply nth_error_Some; congruence).
    destruct (nth_error (m_cap M) (length (m_cap M) - 1)) as [m'|] eqn:Q; [|apply nth_error_None in Q; lia].
    destruct (Nat.eq_dec j (length (m_cap M) - 1)) as [->|Ne]; [rewrite Hj in Q; injection Q as <-; lia|].
    apply Nat.lt_le_incl. apply (wi_cap _ _ _ _ W j (length (m_cap M) - 1) m m'); auto. lia.
  Qed.
  Lemma block_top M g id b n : WI M g -> block id M b n -> b + n <= latest (m_resv M).
  Proof.
    intros W (k & m & m' & A & A' & A2 & A3 & _). unfold latest, last_ts. assert (Datatypes.S k < length (m_resv M)) by (apply nth_error_Some; congruence).
    destruct (nth_error (m_resv M) (length (m_resv M) - 1)) as [m2|] eqn:Q; [|apply nth_error_None in Q; lia].
    rewrite <- A3. apply (wi_resv _ _ _ _ W (Datatypes.S k) (length (m_resv M) - 1) m m2); auto. lia.
  Qed.
  Lemma block_same c id b n b' n' : BI c -> block id (w_mem c) b n -> block id (w_mem c) b' n' -> b = b' /\ n = n'.
  Proof.
    intros B (k & m & m2 & A1 & A2 & A3 & A4 & A5) (k' & m' & m2' & B1 & B2 & B3 & B4 & B5).
    assert (k = k') by (apply (b_one _ _ B k k' m m' A3 B3); congruence). subst k'. rewrite A1 in B1. rewrite A3 in B3. injection B1 as <-. injection B3 as <-. lia.
  Qed.

  Lemma cap_holder c g f : world c g f -> latest (m_cap (w_mem c)) < latest (m_resv (w_mem c)) ->
    (exists u z b, wlookup u (w_run c) = Some z /\ grows (wc_op z) = true /\ block (wc_id z) (w_mem c) b (request (wc_op z)) /\ loops b (wc_prog z) /\
       b <= latest (m_cap (w_mem c)) < b + request (wc_op z)) \/
    (exists id o m b n, In (id, o, m) (w_panics c) /\ overran o m /\ block id (w_mem c) b n /\ b <= latest (m_cap (w_mem c)) < b + n).
  Proof.
    intros (S & B & Hi) Lt. pose proof (si_wi _ _ _ _ S) as W. destruct (wi_ne _ _ _ _ W) as (Nr & _ & Nc). set (cap := latest (m_cap (w_mem c))) in *.
    destruct (between (m_resv (w_mem c)) cap (last_ts (m_resv (w_mem c)))) as (k & m & m' & H1 & H2 & H3).
    { intros m Hm. destruct (m_cap (w_mem c)) as [|m' l] eqn:Ec; [congruence|]. transitivity (mval m'); [apply (b_zero _ _ B m m' Hm); now rewrite Ec|]. 
      pose proof (cap_msgs _ g 0 m' W) as X. rewrite Ec in X. apply X. reflexivity. }
    { unfold latest in Lt. destruct (nth_error (m_resv (w_mem c)) (last_ts (m_resv (w_mem c)))) as [m|]; [exists m; auto|lia]. }
    assert (Bl : block (mby m') (w_mem c) (mval m) (mval m' - mval m)).
    { exists k, m', m. repeat (split; [first [assumption|reflexivity]|]). split; [lia|reflexivity]. }
    destruct (b_who _ _ B k m' H2) as [(u & z & Lu & Hid & Gr & Tl)|[(q & A1 & A2 & A3)|(o & mm & A1 & A2)]].
    - left. destruct (h_base _ _ _ _ Hi u z Lu) as [[_ Hx]|[(_ & b & Bb & Lo)|[Gr' _]]]; [|exists u, z, b|congruence].
      + exfalso. destruct (grow_shape E (wc_op z) Gr) as (k' & Hk & _). rewrite Hk in Hx. unfold tail in Tl. rewrite Hx in Tl. destruct Tl as [Tl _]. exact Tl.
      + rewrite <- Hid in Bl. destruct (block_same _ _ _ _ _ _ B Bl Bb) as [<- <-]. repeat (split; [first [assumption|lia]|]). lia.
    - exfalso. destruct (si_res _ _ _ _ S q A1) as (_ & Ot & _ & _ & Op).
      assert (X : exists b, block (r_id q) (w_mem c) b (request (r_op q)) /\ stored ro (w_mem c) (r_to q) (r_op q) b) by (destruct (r_op q); try discriminate A3; destruct Op as (b & _ & Op); eauto).
      destruct X as (b & Bb & St). rewrite A2 in Bb. destruct (block_same _ _ _ _ _ _ B Bl Bb) as [Eb En].
      destruct (St (cap - b)) as [[[X _] _] _]; [lia|]. pose proof (latest_bound E ro (w_mem c) (r_to q) (ex_intro _ g W)). fold cap in H. lia.
    - right. exists (mby m'), o, mm, (mval m), (mval m' - mval m). split; [exact A1|]. split; [|split; [exact Bl|lia]].
      destruct (proj2 (si_pan _ _ _ _ S _ _ _ A1) A2) as [Ov|(b & Bb & Hc)]; [exact Ov|exfalso]. destruct (block_same _ _ _ _ _ _ B Bl Bb) as [<- En]. unfold cap in *. lia.
  Qed.

  (** ** Who a waiting call waits for *)
  Definition on_elem p i : Prop := exists ag k, p = Spin (CasSt i SOME RESERVED) ag k /\ ag (false, RESERVED) = true.
  Lemma waiting c g f t x : world c g f -> wlookup t (w_run c) = Some x -> blocked (w_mem c) (wc_prog x) ->
    (exists i u z, on_elem (wc_prog x) i /\ g i = GLock (wc_id z) /\ wlookup u (w_run c) = Some z /\ i < latest (m_cap (w_mem c)) /\
       touches (wc_op x) i /\ touches (wc_op z) i /\ (blocked (w_mem c) (wc_prog z) -> waits_holding E (wc_op z) = true) /\
       (u = t -> self_swap (wc_op x) = true /\ waits_holding E (wc_op x) = true)) \/
    (grows (wc_op x) = true /\ exists b ag k, wc_prog x = Spin LoadCap ag k /\ block (wc_id x) (w_mem c) b (request (wc_op x)) /\ latest (m_cap (w_mem c)) < b /\
       ((exists u z b', u <> t /\ wlookup u (w_run c) = Some z /\ grows (wc_op z) = true /\ block (wc_id z) (w_mem c) b' (request (wc_op z)) /\
           b' <= latest (m_cap (w_mem c)) < b' + request (wc_op z) /\ ~ blocked (w_mem c) (wc_prog z)) \/
        (exists id o m b' n, In (id, o, m) (w_panics c) /\ overran o m /\ block id (w_mem c) b' n /\ b' <= latest (m_cap (w_mem c)) < b' + n))).
  Proof.
    intros Wo Lk Bk. pose proof Wo as (S & B & Hi). pose proof (si_wi _ _ _ _ S) as W. pose proof (si_ni _ _ _ _ S) as N.
    assert (Gsp : forall z b, grows (wc_op z) = true -> phase E z -> loops b (wc_prog z) -> blocked (w_mem c) (wc_prog z) -> exists ag k, wc_prog z = Spin LoadCap ag k /\ latest (m_cap (w_mem c)) < b).
    { intros z b Gr Ph Lo Bz. destruct Ph as [[_ Hx]|Tl].
      { destruct (grow_shape E (wc_op z) Gr) as (k' & Hk & _). rewrite Hk in Hx. rewrite Hx in Bz. destruct Bz. }
      unfold tail in Tl. destruct (wc_prog z) as [r|m|a kk|a ag kk]; try (destruct Bz; fail). destruct Lo as [La _]. destruct Tl as [Ta _].
      destruct a as [| | | | | | |i e n| | | | | | | | | | |]; try (destruct La; fail); simpl in *.
      - exists ag, kk. split; [reflexivity|]. now apply La.
      - exfalso. destruct (wc_op z); try discriminate; contradiction. }
    pose proof (h_base _ _ _ _ Hi t x Lk) as Bs. pose proof (b_ph _ _ B t x Lk) as Ph.
    destruct (grows (wc_op x)) eqn:Gr.
    - right. split; [reflexivity|]. destruct Bs as [[_ Hx]|[(_ & b & Bb & Lo)|[Q _]]]; [| |congruence].
      { exfalso. destruct (grow_shape E (wc_op x) Gr) as (k' & Hk & _). rewrite Hk in Hx. rewrite Hx in Bk. destruct Bk. }
      destruct (Gsp x b Gr Ph Lo Bk) as (ag & kk & Hp & Lt). exists b, ag, kk. repeat (split; [assumption|]).
      destruct (cap_holder c g f Wo) as [(u & z & b' & Lu & Gz & Bz & Lz & Hb)|(id & o & m & b' & n & A)].
      + pose proof (block_top _ _ _ _ _ W Bb). lia.
      + left. exists u, z, b'. split.
        { intros ->. rewrite Lk in Lu. injection Lu as <-. destruct (block_same _ _ _ _ _ _ B Bb Bz). lia. }
        repeat (split; [assumption|]). intros Bl. destruct (Gsp z b' Gz (b_ph _ _ B u z Lu) Lz Bl) as (_ & _ & _ & X). lia.
      + right. exists id, o, m, b', n. exact A.
    - left. destruct Bs as [[Q _]|[(Q & _)|[_ Lo]]]; try congruence.
      assert (Tl : tail (wc_op x) (wc_prog x)) by (destruct Ph as [[Q _]|Tl]; [congruence|exact Tl]). unfold tail in Tl.
      destruct (wc_prog x) as [r|m|a kk|a ag kk] eqn:Hp; try (destruct Bk; fail). destruct Lo as [La _]. destruct Tl as [Ta _].
      destruct a as [| | | | | | |i e n| | | | | | | | | | |]; try (destruct La; fail); simpl in *.
      + exfalso. apply La in Bk. lia.
      + destruct e; try (destruct La; fail). destruct n; try (destruct La; fail). destruct Bk as [Ht Ag].
        destruct (proj2 (locked_top E ro (w_mem c) g i W) Ht) as (id & Hg). destruct (h_lock _ _ _ _ Hi i id Hg) as (u & z & Lu & Hid & Hin). subst id.
        exists i, u, z. split; [exists ag, kk; auto|]. split; [exact Hg|]. split; [exact Lu|]. split.
        { destruct (Nat.lt_ge_cases i (latest (m_cap (w_mem c)))) as [|X]; [assumption|]. destruct (wi_beyond _ _ _ _ W i X) as [_ U]. rewrite Hg in U. destruct U. }
        split; [exact Ta|]. split; [eapply (h_touch _ _ _ _ Hi); eauto|].
        assert (Hold : blocked (w_mem c) (wc_prog z) -> waits_holding E (wc_op z) = true).
        { intros Bz. pose proof (h_calm _ _ _ _ Hi u z Lu) as C. destruct (wc_prog z) as [r|m|a2 k2|a2 ag2 k2]; try (destruct Bz; fail).
          destruct C as ([C|C] & _); [exact C|]. rewrite C in Hin. destruct Hin. }
        split; [exact Hold|]. intros ->. rewrite Lk in Lu. injection Lu as <-. pose proof (h_calm _ _ _ _ Hi t x Lk) as C. rewrite Hp in C.
        destruct C as (C0 & C1 & _). split; [destruct C1 as [C1|C1]; [exact C1|contradiction]|]. destruct C0 as [C0|C0]; [exact C0|]. rewrite C0 in Hin. destruct Hin.
  Qed.

  (** ** A call that waits goes on waiting while the other one stands still *)
  Definition held_up c g (z : wcall V) p : Prop :=
    (exists i, on_elem p i /\ g i = GLock (wc_id z)) \/
    ((exists ag k, p = Spin LoadCap ag k /\ ag (latest (m_cap (w_mem c))) = true) /\
     (g (latest (m_cap (w_mem c))) = GOwn (wc_id z) \/ g (latest (m_cap (w_mem c))) = GLost)).
  Lemma held_blocked c g z p : WI (w_mem c) g -> held_up c g z p -> blocked (w_mem c) p.
  Proof.
    intros W [(i & (ag & k & -> & Ag) & Hg)|((ag & k & -> & Ag) & _)]; simpl; [|assumption]. split; [|assumption]. apply (locked_top E ro (w_mem c) g i W). eauto.
  Qed.
  Lemma wexec_grow id (a : act V) k M tv y M' tv' : wexec E id a k M tv = WDone y M' tv' -> m_cap M' = m_cap M \/ m_grow M = Some id.
  Proof.
    destruct a; simpl; unfold with_wslot; intros H;
      repeat match goal with
        | H : context [if ?b then _ else _] |- _ => let Q := fresh "Q" in destruct b eqn:Q
        | H : context [match ?b with _ => _ end] |- _ => let Q := fresh "Q" in destruct b eqn:Q
        end; try discriminate; injection H as <- <- <-; simpl; auto.
    right. unfold is_tid in Q. destruct (m_grow M) as [j|]; [|discriminate]. apply Nat.eqb_eq in Q. congruence.
  Qed.
  Lemma lost_cap c g l c' : WI (w_mem c) g -> w_run c <> [] -> wstep E c l = WNext c' -> g (latest (m_cap (w_mem c))) = GLost -> m_cap (w_mem c') = m_cap (w_mem c).
  Proof.
    intros W R St Hg. destruct l as [t o from|t k|t u| |n]; simpl in St.
    - destruct (wlookup t (w_run c)); [discriminate|]. destruct (fetch _ _ _); [|discriminate]. injection St as <-. reflexivity.
    - unfold wstep_thread in St. destruct (wlookup t (w_run c)) as [x|]; [|discriminate].
      assert (A : forall a y M tv, wexec E (wc_id x) a k (w_mem c) (w_view c t) = WDone y M tv -> m_cap M = m_cap (w_mem c)).
      { intros a y M tv Ex. destruct (wexec_grow _ _ _ _ _ _ _ _ Ex) as [|Q]; [assumption|]. apply (wi_grow _ _ _ _ W) in Q. congruence. }
      destruct (wc_prog x) as [r|m|a kk|a ag kk].
      + injection St as <-. reflexivity.
      + injection St as <-. reflexivity.
      + destruct (wexec E (wc_id x) a k (w_mem c) (w_view c t)) eqn:Ex; try discriminate. injection St as <-. simpl. eauto.
      + destruct (wexec E (wc_id x) a k (w_mem c) (w_view c t)) as [y M tv| |] eqn:Ex; try discriminate. destruct (ag y); injection St as <-; simpl; eauto.
    - injection St as <-. reflexivity.
    - destruct (w_run c); [congruence|discriminate].
    - destruct (w_run c); [congruence|discriminate].
  Qed.
  Lemma step_dec (l : wlabel V) t : (exists k, l = WStep t k) \/ (forall k, l <> WStep t k).
  Proof. destruct l as [u o from|u k|u w| |n]; try (right; discriminate). destruct (Nat.eq_dec u t) as [->|]; [left; eauto|right; congruence]. Qed.

  (** thread [u] makes no step, and thread [t] reads the newest messages *)
  Definition without (u t : nat) c (l : wlabel V) : Prop :=
    wclient E ro c l /\ (forall k, l <> WStep u k) /\ (forall k, l = WStep t k -> k = front c t).
  Lemma held_step c g f t x u z l c' : world c g f -> wlookup t (w_run c) = Some x -> wlookup u (w_run c) = Some z -> held_up c g z (wc_prog x) ->
    without u t c l -> wstep E c l = WNext c' ->
    exists g' f', world c' g' f' /\ wlookup t (w_run c') = Some x /\ wlookup u (w_run c') = Some z /\ held_up c' g' z (wc_prog x).
  Proof.
    intros Wo Lk Lu Hu (Cl & Nu & Nt) St. pose proof (si_wi _ _ _ _ (proj1 Wo)) as W. destruct (step_dec l t) as [(k & ->)|Nl].
    - specialize (Nt k eq_refl). subst k. destruct (front_step c g f t x Wo Lk) as [[_ Wt]|[Nb _]]; [|now apply (held_blocked c g z) in Hu].
      unfold WFair.waits in Wt. rewrite Wt in St. injection St as <-. exists g, f. auto.
    - destruct (step_world E ro EOK c g f l c' Wo Cl St) as (g' & f' & Wo' & Kp). exists g', f'. split; [exact Wo'|].
      destruct (Kp t x Lk) as (_ & _ & K1). destruct (K1 Nl) as [Lt _]. split; [exact Lt|]. destruct (Kp u z Lu) as (_ & Kl & K2). destruct (K2 Nu) as [Lu' Sm]. split; [exact Lu'|].
      destruct Hu as [(i & Oi & Hg)|((ag & k & Hp & Ag) & Hg)].
      + left. exists i. split; [exact Oi|]. destruct Sm as (_ & _ & S3 & _). now apply S3.
      + right. assert (Ec : m_cap (w_mem c') = m_cap (w_mem c)).
        { destruct Hg as [Hg|Hg]; [destruct Sm as (_ & _ & _ & _ & _ & _ & S7 & _); now apply S7|].
          apply (lost_cap c g l c' W); auto. intros e. rewrite e in Lk. discriminate. }
        rewrite Ec. split; [exists ag, k; auto|]. destruct Hg as [Hg|Hg]; [left; destruct Sm as (S1 & _); now apply S1|right; now apply Kl].
  Qed.
  Lemma held_forever c g f t x u z c' : world c g f -> wlookup t (w_run c) = Some x -> wlookup u (w_run c) = Some z -> held_up c g z (wc_prog x) ->
    wreach E (without u t) c c' -> exists g' f', world c' g' f' /\ wlookup t (w_run c') = Some x /\ wlookup u (w_run c') = Some z /\ held_up c' g' z (wc_prog x).
  Proof.
    intros Wo Lk Lu Hu Re. induction Re as [|d l d' Re IH Pl St]; [exists g, f; auto|]. destruct IH as (g' & f' & Wo' & L1 & L2 & H'). eapply held_step; eauto.
  Qed.
  Lemma block_disj M g id b n id' b' n' i : WI M g -> block id M b n -> block id' M b' n' -> b <= i < b + n -> b' <= i < b' + n' -> id = id'.
  Proof.
    intros W (k & m & m2 & A1 & A2 & A3 & A4 & A5) (k' & m' & m2' & B1 & B2 & B3 & B4 & B5) Hi Hi'. destruct (Nat.lt_trichotomy k k') as [L|[L|L]].
    - pose proof (wi_resv _ _ _ _ W (Datatypes.S k) k' m m2' L A3 B1). lia.
    - subst k'. congruence.
    - pose proof (wi_resv _ _ _ _ W (Datatypes.S k') k m' m2 L B3 A1). lia.
  Qed.
  Lemma cap_owner c g f z b n : world c g f -> block (wc_id z) (w_mem c) b n -> b <= latest (m_cap (w_mem c)) < b + n ->
    g (latest (m_cap (w_mem c))) = GOwn (wc_id z) \/ g (latest (m_cap (w_mem c))) = GLost.
  Proof.
    intros (S & B & Hi) Bz Hb. pose proof (si_wi _ _ _ _ S) as W. pose proof (block_top _ _ _ _ _ W Bz).
    destruct (wi_beyond _ _ _ _ W _ (le_n _)) as [_ U]. destruct (g (latest (m_cap (w_mem c)))) as [|j|j| | |j] eqn:Hg; simpl in U; try contradiction; auto.
    - apply (wi_free _ _ _ _ W) in Hg. lia.
    - left. f_equal. destruct (h_own _ _ _ _ Hi _ j (or_introl Hg)) as (b2 & n2 & B2 & Hb2). eapply block_disj; eauto.
  Qed.

  (** ** Going on *)
  Lemma ngp_moved c t x c' : moved c t x c' -> no_overrun c -> no_overrun c' \/ exists m, In (wc_id x, wc_op x, m) (w_panics c') /\ overran (wc_op x) m.
  Proof.
    intros [_ [(q & _ & _ & Hp)|[_ [Hp|(m & Hp)]]]] N; [left; unfold no_overrun; now rewrite Hp|left; unfold no_overrun; now rewrite Hp|].
    destruct (too_far_dec (wc_op x) m) as [G|G]; [right; exists m; rewrite Hp; split; [apply in_or_app; right; now left|exact G]|].
    left. intros id o m' Hin. rewrite Hp in Hin. apply in_app_or in Hin as [Hin|[[= <- <- <-]|[]]]; [eapply N; eauto|assumption].
  Qed.
  Lemma moved_run ts c t x c' : NoDup ts -> wlookup t (w_run c) = Some x -> moved c t x c' -> (forall u y, wlookup u (w_run c) = Some y -> In u ts) ->
    one_less less (map (fun t => match wlookup t (w_run c') with Some x => Some (wc_prog x) | None => None end) ts)
                  (map (fun t => match wlookup t (w_run c) with Some x => Some (wc_prog x) | None => None end) ts) /\
    (forall u y, wlookup u (w_run c') = Some y -> In u ts).
  Proof.
    intros Nt Lk [K1 K2] Hts. split.
    - destruct (in_split t ts (Hts t x Lk)) as (t1 & t2 & ->). rewrite !map_app. simpl. rewrite Lk. apply NoDup_remove_2 in Nt.
      rewrite (map_ext_in _ (fun t => match wlookup t (w_run c) with Some x => Some (wc_prog x) | None => None end) t1).
      rewrite (map_ext_in _ (fun t => match wlookup t (w_run c) with Some x => Some (wc_prog x) | None => None end) t2).
      + constructor. destruct K2 as [(q & -> & C & _)|[-> _]]; simpl; eauto.
      + intros u Hu. rewrite K1; [reflexivity|]. intros ->. apply Nt, in_or_app. auto.
      + intros u Hu. rewrite K1; [reflexivity|]. intros ->. apply Nt, in_or_app. auto.
    - intros u y. destruct (Nat.eq_dec u t) as [->|Ne]; [intros _; eapply Hts; eauto|]. rewrite K1 by assumption. apply Hts.
  Qed.
  Lemma someone c g f t x : world c g f -> wlookup t (w_run c) = Some x -> no_overrun c -> (forall u z, wlookup u (w_run c) = Some z -> waits_holding E (wc_op z) = false) ->
    exists u z, wlookup u (w_run c) = Some z /\ ~ blocked (w_mem c) (wc_prog z).
  Proof.
    intros Wo Lk Np Nw. destruct (front_step c g f t x Wo Lk) as [[Bk _]|[Nb _]]; [|eauto].
    destruct (waiting c g f t x Wo Lk Bk) as [(i & u & z & _ & _ & Lu & _ & _ & _ & Hw & _)|(Gr & b & ag & k & _ & _ & _ & [(u & z & b' & _ & Lu & _ & _ & _ & Nz)|(id & o & m & b' & n & Hin & Go & _)])].
    - exists u, z. split; [exact Lu|]. intros Bz. apply Hw in Bz. rewrite (Nw u z Lu) in Bz. discriminate.
    - eauto.
    - exact (False_ind _ (Np _ _ _ Hin Go)).
  Qed.
End WLive.

(** ** Executions *)
Section Run.
  Context {V : Type} (E : env V) (ro : bool) (l0 : list V) (c0 m0 : nat).
  Notation execution := (wexecution E ro l0 c0 m0).
  Notation P := (wclient E ro).
  Notation waits := (WFair.waits E).
  Notation goes_on := (WFair.goes_on E).
  Implicit Types (c : wcfg V) (x z : wcall V).

  Lemma execution_step c l c' : execution c -> P c l -> wstep E c l = WNext c' -> execution c'.
  Proof. intros (A & B & C & D & R) H St. repeat (split; [assumption|]). eapply wreach_step; eauto. Qed.
  Lemma exec_ni c : execution c -> NI c.
  Proof. intros X. destruct (execution_world E ro _ _ _ _ X) as (_ & g & f & (S & _)). apply (si_ni _ _ _ _ S). Qed.

  Definition own_steps (t : nat) (ls : list (wlabel V)) : Prop := forall l, In l ls -> exists k, l = WStep t k.
  Definition thread_steps (ls : list (wlabel V)) : Prop := forall l, In l ls -> exists t k, l = WStep t k.

  Lemma alone_ends c t x : execution c -> wlookup t (w_run c) = Some x -> (forall u z, wlookup u (w_run c) = Some z -> u = t) ->
    self_swap (wc_op x) && hspin E = false -> grows (wc_op x) = false \/ no_overrun c ->
    exists ls c', path E P c ls c' /\ own_steps t ls /\ w_run c' = [].
  Proof.
    intros X Lk On Ns Gp. remember (wc_prog x) as p eqn:Hp. revert c x X Lk On Ns Gp Hp.
    induction (child_wf p) as [p _ IH]. intros c x X Lk On Ns Gp Hp.
    destruct (execution_world E ro _ _ _ _ X) as (EOK & g & f & Wo). destruct (front_step E ro EOK c g f t x Wo Lk) as [[Bk _]|(_ & c' & St & Mv)].
    - exfalso. destruct (waiting E ro c g f t x Wo Lk Bk) as [(i & u & z & _ & _ & Lu & _ & _ & _ & _ & Hs)|(Gr & b & ag & k & _ & _ & _ & [(u & z & b' & Nu & Lu & _)|(id & o & m & b' & n & Hin & Go & _)])].
      + destruct (Hs (On u z Lu)) as [H1 H2]. unfold waits_holding in H2. apply andb_true_iff in H2. destruct H2 as [_ H2]. rewrite H1, H2 in Ns. discriminate.
      + apply Nu. eapply On; eauto.
      + destruct Gp as [Gp|Gp]; [congruence|]. exact (Gp _ _ _ Hin Go).
    - pose proof (execution_step c (WStep t (front c t)) c' X I St) as X'. pose proof Mv as Mv0. destruct Mv as [K1 [(q & Lq & C & Hpn)|[Lq _]]].
      + destruct (IH q) with (c := c') (x := WCall (wc_id x) (wc_op x) (wc_from x) q) as (ls & c2 & Pa & Ow & R); try assumption.
        * now rewrite Hp.
        * intros u z. destruct (Nat.eq_dec u t) as [->|Ne]; [reflexivity|]. rewrite K1 by assumption. apply On.
        * destruct Gp as [Gp|Gp]; [now left|]. right. unfold no_overrun. now rewrite Hpn.
        * reflexivity.
        * exists (WStep t (front c t) :: ls), c2. split; [split; [exact I|exists c'; auto]|]. split; [|exact R]. intros l [<-|Hl]; [eauto|now apply Ow].
      + exists [WStep t (front c t)], c'. split; [split; [exact I|exists c'; split; [exact St|reflexivity]]|]. split; [intros l [<-|[]]; eauto|].
        destruct (w_run c') as [|[u z] r] eqn:R; [reflexivity|exfalso]. assert (Lu : wlookup u (w_run c') = Some z) by (rewrite R; simpl; now rewrite Nat.eqb_refl).
        destruct (Nat.eq_dec u t) as [->|Ne]; [rewrite R in Lu; congruence|]. rewrite R in Lu; rewrite K1 in Lu by assumption. apply Ne. eapply On; eauto.
  Qed.

  Definition never_waits_holding c : Prop := forall u z, wlookup u (w_run c) = Some z -> waits_holding E (wc_op z) = false.
  Lemma nwh_moved c t x c' : wlookup t (w_run c) = Some x -> moved c t x c' -> never_waits_holding c -> never_waits_holding c'.
  Proof.
    intros Lk [K1 K2] N u z Lu. destruct (Nat.eq_dec u t) as [->|Ne]; [|rewrite K1 in Lu by assumption; eauto].
    destruct K2 as [(q & Lq & _)|[Lq _]]; rewrite Lq in Lu; [|discriminate]. injection Lu as <-. simpl. eauto.
  Qed.
  Lemma look_in c t x r : w_run c = (t, x) :: r -> wlookup t (w_run c) = Some x.
  Proof. intros ->. simpl. now rewrite Nat.eqb_refl. Qed.
  Lemma look_ts c : forall u y, wlookup u (w_run c) = Some y -> In u (map fst (w_run c)).
  Proof. intros u y. induction (w_run c) as [|[v z] r IH]; simpl; [discriminate|]. destruct (Nat.eqb_spec u v) as [->|]; auto. Qed.

  Lemma all_end c : execution c -> never_waits_holding c -> no_overrun c ->
    exists ls c', path E P c ls c' /\ thread_steps ls /\ (w_run c' = [] \/ exists id o m, In (id, o, m) (w_panics c') /\ overran o m).
  Proof.
    intros X Nw Np. set (ts := map fst (w_run c)). assert (Nt : NoDup ts) by apply (ni_nd _ (exec_ni c X)).
    pose proof (look_ts c) as Hts. change (forall u y, wlookup u (w_run c) = Some y -> In u ts) in Hts.
    remember (map (fun t => match wlookup t (w_run c) with Some x => Some (wc_prog x) | None => None end) ts) as l eqn:Hl. clearbody ts. revert c X Nw Np Hts Hl.
    induction (one_less_wf less less_wf l) as [l _ IH]. intros c X Nw Np Hts Hl.
    destruct (w_run c) as [|[t x] r] eqn:R; [exists [], c; split; [reflexivity|split; [intros ? []|now left]]|]. rewrite <- R in Hts. pose proof (look_in c t x r R) as Lk.
    destruct (execution_world E ro _ _ _ _ X) as (EOK & g & f & Wo). destruct (someone E ro EOK c g f t x Wo Lk Np Nw) as (u & z & Lu & Nb).
    destruct (front_step E ro EOK c g f u z Wo Lu) as [[Bk _]|(_ & c' & St & Mv)]; [contradiction|].
    pose proof (execution_step c (WStep u (front c u)) c' X I St) as X'. rewrite <- R in Hl. destruct (moved_run ts c u z c' Nt Lu Mv Hts) as [D Hts'].
    destruct (ngp_moved c u z c' Mv Np) as [Np'|(m & Hin & Gr)].
    - destruct (IH _ ltac:(rewrite Hl; exact D) c' X' (nwh_moved _ _ _ _ Lu Mv Nw) Np' Hts' eq_refl) as (ls & c2 & Pa & Th & Q).
      exists (WStep u (front c u) :: ls), c2. split; [split; [exact I|exists c'; auto]|]. split; [|exact Q]. intros l' [<-|Hl']; [eauto|now apply Th].
    - exists [WStep u (front c u)], c'. split; [split; [exact I|exists c'; split; [exact St|reflexivity]]|]. split; [intros l' [<-|[]]; eauto|]. right. eauto.
  Qed.

  (** ** calls that are gone stay gone *)
  Definition gone c id : Prop := over c id /\ id < w_next c.
  Lemma gone_step c l c' id : NI c -> gone c id -> wstep E c l = WNext c' -> gone c' id.
  Proof.
    intros N (Ov & Lt) St. destruct l as [t o from|t k|t u| |n].
    - simpl in St. destruct (wlookup t (w_run c)) eqn:Lk; [discriminate|]. destruct (fetch _ _ _); [|discriminate]. injection St as <-. split; [|simpl; lia].
      intros w z. simpl. destruct (Nat.eqb_spec w t) as [->|]; [intros [= <-]; simpl; lia|apply Ov].
    - assert (Lk : exists x, wlookup t (w_run c) = Some x) by (simpl in St; unfold wstep_thread in St; destruct (wlookup t (w_run c)); [eauto|discriminate]). destruct Lk as (x & Lk).
      assert (Nx : w_next c' = w_next c).
      { simpl in St. unfold wstep_thread in St. rewrite Lk in St. destruct (wc_prog x) as [r|m|a kk|a ag kk].
        - injection St as <-. reflexivity.
        - injection St as <-. reflexivity.
        - destruct (wexec E _ _ _ _ _); try discriminate. injection St as <-. reflexivity.
        - destruct (wexec E (wc_id x) a k (w_mem c) (w_view c t)) as [y M tv| |]; try discriminate. destruct (ag y); injection St as <-; reflexivity. }
      destruct (step_moved E c t k x c' N Lk St) as [->|[K1 K2]]; [split; assumption|]. split; [|rewrite Nx; exact Lt].
      intros w z Lw. destruct (Nat.eq_dec w t) as [->|Ne]; [|rewrite K1 in Lw by assumption; eapply Ov; eauto].
      destruct K2 as [(q & Lq & _)|[Lq _]]; rewrite Lq in Lw; [|discriminate]. injection Lw as <-. exact (Ov t x Lk).
    - simpl in St. injection St as <-. split; assumption.
    - simpl in St. destruct (w_run c); [|discriminate]. destruct (latest _ <=? latest _); [|discriminate]. injection St as <-. split; [intros w z H; discriminate|assumption].
    - simpl in St. destruct (w_run c) eqn:R; [|discriminate]. destruct (reserve E _ _ n); injection St as <-; (split; [intros w z H; simpl in H; rewrite ?R in H; discriminate|assumption]).
  Qed.
  Lemma moved_gone c t x c' : NI c -> wlookup t (w_run c) = Some x -> moved c t x c' -> wlookup t (w_run c') = None -> over c' (wc_id x).
  Proof.
    intros N Lk [K1 _] L u z Lu e. destruct (Nat.eq_dec u t) as [->|Ne]; [congruence|]. rewrite K1 in Lu by assumption. apply Ne. eapply (ni_ids _ N); eauto.
  Qed.
  Lemma step_gone c t k x c' : NI c -> wlookup t (w_run c) = Some x -> wstep E c (WStep t k) = WNext c' -> moved c t x c' ->
    (exists q, wlookup t (w_run c') = Some (WCall (wc_id x) (wc_op x) (wc_from x) q) /\ child q (wc_prog x)) \/ gone c' (wc_id x).
  Proof.
    intros N Lk St Mv. pose proof (NI_step E _ _ _ N St) as N'. pose proof Mv as [K1 [(q & Lq & C & _)|[Lq _]]]; [left; eauto|right].
    split; [exact (moved_gone c t x c' N Lk Mv Lq)|]. pose proof (ni_lt _ N (wc_id x) (ex_intro _ t (ex_intro _ x (conj Lk eq_refl)))) as H.
    assert (Nx : w_next c' = w_next c); [|lia].
    simpl in St. unfold wstep_thread in St. rewrite Lk in St. destruct (wc_prog x) as [r|m|a kk|a ag kk].
    - injection St as <-. reflexivity.
    - injection St as <-. reflexivity.
    - destruct (wexec E _ _ _ _ _); try discriminate. injection St as <-. reflexivity.
    - destruct (wexec E (wc_id x) a k (w_mem c) (w_view c t)) as [y M tv| |]; try discriminate. destruct (ag y); injection St as <-; reflexivity.
  Qed.
  Lemma other_step c l c' t x : execution c -> P c l -> wlookup t (w_run c) = Some x -> wstep E c l = WNext c' -> (forall k, l <> WStep t k) ->
    wlookup t (w_run c') = Some x.
  Proof.
    intros X Cl Lk St Nl. destruct (execution_world E ro _ _ _ _ X) as (EOK & g & f & Wo). destruct (step_world E ro EOK c g f l c' Wo Cl St) as (g' & f' & _ & Kp).
    destruct (Kp t x Lk) as (_ & _ & K). now apply K.
  Qed.
  Lemma step_le c l c' t x : execution c -> P c l -> wlookup t (w_run c) = Some x -> wstep E c l = WNext c' -> mle ro (w_mem c) (w_mem c').
  Proof.
    intros X Cl Lk St. destruct (execution_world E ro _ _ _ _ X) as (EOK & g & f & Wo). destruct (step_world E ro EOK c g f l c' Wo Cl St) as (g' & f' & _ & Kp).
    apply (Kp t x Lk).
  Qed.

  (** ** how much work is left *)
  Definition left c (t : nat) x n : Prop := wlookup t (w_run c) = Some x /\ within (m_max (w_mem c)) n (wc_prog x) any.
  Lemma wexec_limit id (a : act V) k M g tv y M' tv' : env_ok E -> WI E ro M g -> wexec E id a k M tv = WDone y M' tv' -> limit (m_max M) a y /\ m_max M' = m_max M.
  Proof.
    intros EOK W Ex. split.
    - pose proof (ok_le E EOK _ _ (wi_cap_ok _ _ _ _ W)) as Le. destruct a; try exact I; simpl in *.
      + destruct (nth_error (m_wrtn M) k) as [m|] eqn:Q; [|discriminate]. destruct (_ <=? _); [|discriminate]. injection Ex as <- _ _.
        destruct (wi_wrtn_v _ _ _ _ W m (nth_error_In _ _ Q)) as [_ (Pb & _)]. pose proof (latest_bound E ro M (mview m) (ex_intro _ g W)). lia.
      + destruct (nth_error (m_cap M) k) as [m|] eqn:Q; [|discriminate]. destruct (_ <=? _); [|discriminate]. injection Ex as <- _ _.
        pose proof (cap_msgs E ro M g k m W Q). lia.
    - destruct a; simpl in Ex; unfold with_wslot in Ex;
        repeat match goal with
          | H : context [if ?b then _ else _] |- _ => destruct b
          | H : context [match ?b with _ => _ end] |- _ => destruct b
          end; try discriminate; injection Ex as <- <- <-; reflexivity.
  Qed.
  Lemma max_same c l c' g : env_ok E -> WI E ro (w_mem c) g -> wstep E c l = WNext c' -> w_run c <> [] -> m_max (w_mem c') = m_max (w_mem c).
  Proof.
    intros EOK W St R. destruct l as [t o from|t k|t u| |n]; simpl in St.
    - destruct (wlookup t (w_run c)); [discriminate|]. destruct (fetch _ _ _); [|discriminate]. injection St as <-. reflexivity.
    - unfold wstep_thread in St. destruct (wlookup t (w_run c)) as [x|]; [|discriminate]. destruct (wc_prog x) as [r|m|a kk|a ag kk].
      + injection St as <-. reflexivity.
      + injection St as <-. reflexivity.
      + destruct (wexec E (wc_id x) a k (w_mem c) (w_view c t)) eqn:Ex; try discriminate. injection St as <-. simpl. eapply wexec_limit; eauto.
      + destruct (wexec E (wc_id x) a k (w_mem c) (w_view c t)) as [y M tv| |] eqn:Ex; try discriminate. destruct (ag y); injection St as <-; simpl; [reflexivity|]. eapply wexec_limit; eauto.
    - injection St as <-. reflexivity.
    - destruct (w_run c); [congruence|discriminate].
    - destruct (w_run c); [congruence|discriminate].
  Qed.
  Lemma own_left c t k x n c' : execution c -> left c t x n -> wstep E c (WStep t k) = WNext c' -> c' <> c ->
    (exists q, left c' t (WCall (wc_id x) (wc_op x) (wc_from x) q) (n - 1) /\ 0 < n) \/ gone c' (wc_id x).
  Proof.
    intros X [Lk Wi] St Ne. pose proof (exec_ni c X) as N. destruct (execution_world E ro _ _ _ _ X) as (EOK & g & f & (S & _)). pose proof (si_wi _ _ _ _ S) as W.
    destruct (step_moved E c t k x c' N Lk St) as [|Mv]; [contradiction|]. destruct (step_gone c t k x c' N Lk St Mv) as [(q & Lq & C)|G]; [left|now right].
    simpl in St. unfold wstep_thread in St. rewrite Lk in St. destruct (wc_prog x) as [r|m|a kk|a ag kk] eqn:Hp; simpl in C; try contradiction.
    - destruct (wexec E (wc_id x) a k (w_mem c) (w_view c t)) as [y M tv| |] eqn:Ex; try discriminate. injection St as <-. destruct (wexec_limit _ _ _ _ _ _ _ _ _ EOK W Ex) as [L1 L2].
      exists (kk y). destruct Wi as [W1 W2]. split; [|assumption]. split; [simpl; now rewrite Nat.eqb_refl|]. simpl. rewrite L2. now apply W2.
    - destruct (wexec E (wc_id x) a k (w_mem c) (w_view c t)) as [y M tv| |] eqn:Ex; try discriminate. destruct (ag y); [congruence|]. injection St as <-. destruct (wexec_limit _ _ _ _ _ _ _ _ _ EOK W Ex) as [L1 L2].
      exists (kk y). destruct Wi as [W1 W2]. split; [|assumption]. split; [simpl; now rewrite Nat.eqb_refl|]. simpl. rewrite L2. now apply W2.
  Qed.
  Lemma other_left c l t x n c' : execution c -> P c l -> left c t x n -> wstep E c l = WNext c' -> (forall k, l <> WStep t k) -> left c' t x n.
  Proof.
    intros X Cl [Lk Wi] St Nl. split; [eapply other_step; eauto|]. destruct (execution_world E ro _ _ _ _ X) as (EOK & g & f & (S & _)).
    rewrite (max_same c l c' g EOK (si_wi _ _ _ _ S) St); [exact Wi|]. intros e. rewrite e in Lk. discriminate.
  Qed.
  Lemma all_left c : execution c -> forall t x, wlookup t (w_run c) = Some x -> left c t x (cost1 (wc_op x) (m_max (w_mem c))).
  Proof.
    intros (X1 & X2 & X3 & X4 & R). induction R as [|c l c' R IH C St]; [intros t x H; discriminate|].
    assert (X : execution c) by (repeat (split; [assumption|]); assumption). intros t z Lz.
    destruct (step_dec l t) as [(k & ->)|Nl].
    - assert (Lk : exists x, wlookup t (w_run c) = Some x) by (simpl in St; unfold wstep_thread in St; destruct (wlookup t (w_run c)); [eauto|discriminate]). destruct Lk as (x & Lk).
      destruct (step_moved E c t k x c' (exec_ni c X) Lk St) as [->|Mv]; [now apply IH|]. pose proof (moved_ne c t x c' Lk Mv) as Ne.
      destruct (own_left c t k x _ c' X (IH t x Lk) St Ne) as [(q & [Lq Wq] & Hn)|[G _]].
      + rewrite Lz in Lq. injection Lq as ->. split; [exact Lz|]. simpl. eapply within_weak; [|instantiate (1 := cost1 (wc_op x) (m_max (w_mem c)) - 1)|exact (fun r H => H)].
        * exact Wq.
        * destruct (execution_world E ro _ _ _ _ X) as (EOK & g & f & (S & _)). rewrite (max_same c _ c' g EOK (si_wi _ _ _ _ S) St); [lia|]. intros e. rewrite e in Lk. discriminate.
      + exfalso. pose proof Mv as [_ [(q & Lq & _)|[Lq _]]]; rewrite Lq in Lz; [injection Lz as <-|discriminate]. now apply (G t _ Lq).
    - assert (Q : wlookup t (w_run c) = Some z \/ exists o from v, l = WInv t o from /\ z = WCall (w_next c) o v (op_prog E o)).
      { destruct l as [u o from|u k|u w| |n]; simpl in St.
        - destruct (wlookup u (w_run c)) eqn:Lk; [discriminate|]. destruct (fetch _ _ _) as [v|]; [|discriminate]. injection St as <-. simpl in Lz. destruct (Nat.eqb_spec t u) as [->|]; [|now left].
          injection Lz as <-. right. eauto.
        - assert (Lk : exists x, wlookup u (w_run c) = Some x) by (unfold wstep_thread in St; destruct (wlookup u (w_run c)); [eauto|discriminate]). destruct Lk as (x & Lk).
          destruct (step_moved E c u k x c' (exec_ni c X) Lk St) as [->|[K1 _]]; [now left|]. left. rewrite <- K1; [exact Lz|]. intros ->. now apply (Nl k).
        - injection St as <-. now left.
        - destruct (w_run c); [|discriminate]. destruct (latest _ <=? latest _); [|discriminate]. injection St as <-. discriminate.
        - destruct (w_run c) eqn:Rc; [|discriminate]. destruct (reserve E _ _ n); injection St as <-; [discriminate|]. rewrite Rc in Lz. discriminate. }
      destruct Q as [Lk|(o & from & v & -> & ->)].
      + pose proof (other_left c l t z _ c' X C (IH t z Lk) St Nl) as Q. destruct (execution_world E ro _ _ _ _ X) as (EOK & g & f & (S & _)).
        rewrite (max_same c l c' g EOK (si_wi _ _ _ _ S) St); [exact Q|]. intros e. rewrite e in Lk. discriminate.
      + split; [exact Lz|]. simpl. apply op_within.
  Qed.
  Lemma work_gone t c k c' id : execution c -> work E P t c k c' -> gone c id -> gone c' id.
  Proof.
    intros X Wk. revert X. induction Wk as [c|c l d k c' C St D Wk IH|c j d k c' C St Ne Wk IH]; intros X G; [assumption| |];
      (apply IH; [eapply execution_step; eauto|]; eapply gone_step; eauto using exec_ni).
  Qed.
  Lemma left_ends c t x n k c' : execution c -> left c t x n -> work E P t c k c' -> n < k -> gone c' (wc_id x).
  Proof.
    intros X Hl Wk. revert x n X Hl. induction Wk as [c|c l d k c' C St D Wk IH|c j d k c' C St Ne Wk IH]; intros x n X Hl Lt.
    - lia.
    - assert (Xd : execution d) by (eapply execution_step; eauto). apply (IH x n Xd); [|assumption].
      destruct D as [D|D]; [exact (other_left c l t x n d X C Hl St D)|now rewrite D].
    - assert (Xd : execution d) by (eapply execution_step; eauto). destruct (own_left c t j x n d X Hl St Ne) as [(q & Hq & Hn)|G].
      + apply (IH _ (n - 1) Xd Hq). lia.
      + eapply work_gone; eauto.
  Qed.
  Lemma path_gone ls : forall c c' id, execution c -> path E P c ls c' -> gone c id -> gone c' id.
  Proof.
    induction ls as [|l ls IH]; intros c c' id X Pa G; simpl in Pa; [now subst|]. destruct Pa as (Cl & d & St & Pa).
    apply (IH d c' id); [eapply execution_step; eauto|assumption|]. eapply gone_step; eauto using exec_ni.
  Qed.

  (** a call that neither locks nor grows never waits, whichever messages it reads *)
  Lemma free_moves c t x k c' : execution c -> wlookup t (w_run c) = Some x -> grows (wc_op x) = false -> (forall i, ~ touches (wc_op x) i) ->
    wstep E c (WStep t k) = WNext c' -> moved c t x c'.
  Proof.
    intros X Lk Gr Nt St. destruct (execution_world E ro _ _ _ _ X) as (EOK & g & f & (S & B & Hi)). destruct (step_moved E c t k x c' (exec_ni c X) Lk St) as [->|]; [exfalso|assumption].
    destruct (h_base _ _ _ _ Hi t x Lk) as [[Q _]|[(Q & _)|[_ Lo]]]; try congruence. destruct (b_ph _ _ B t x Lk) as [[Q _]|Tl]; [congruence|]. unfold tail in Tl.
    simpl in St. unfold wstep_thread in St. rewrite Lk in St. pose proof (no_loop (wc_prog x)) as NL. destruct (wc_prog x) as [r|m|a kk|a ag kk] eqn:Hp.
    - injection St as St. apply (f_equal (fun d => wlookup t (w_run d))) in St. simpl in St. rewrite wlook_same in St by apply (exec_ni c X). congruence.
    - injection St as St. apply (f_equal (fun d => wlookup t (w_run d))) in St. simpl in St. rewrite wlook_same in St by apply (exec_ni c X). congruence.
    - destruct (wexec E (wc_id x) a k (w_mem c) (w_view c t)) as [y M tv| |]; try discriminate. injection St as St.
      apply (f_equal (fun d => wlookup t (w_run d))) in St. simpl in St. rewrite Nat.eqb_refl, Lk in St. injection St as St. apply (f_equal wc_prog) in St. simpl in St. now apply (NL y); rewrite <- Hp.
    - destruct Lo as [La _], Tl as [Ta _]. destruct (wexec E (wc_id x) a k (w_mem c) (w_view c t)) as [y M tv| |]; try discriminate. destruct (ag y) eqn:Ag.
      + destruct a as [| | | | | | |i e n| | | | | | | | | | |]; try (destruct La; fail); simpl in *; [apply La in Ag; lia|now apply (Nt i)].
      + injection St as St. apply (f_equal (fun d => wlookup t (w_run d))) in St. simpl in St. rewrite Nat.eqb_refl, Lk in St. injection St as St. apply (f_equal wc_prog) in St. simpl in St. now apply (NL y); rewrite <- Hp.
  Qed.
  Lemma path_ends t ls : forall c x n c', execution c -> left c t x n -> grows (wc_op x) = false -> (forall i, ~ touches (wc_op x) i) ->
    path E P c ls c' -> n < steps_of t ls -> gone c' (wc_id x).
  Proof.
    induction ls as [|l ls IH]; intros c x n c' X Hl Gr Nt Pa Lt; [unfold steps_of in Lt; simpl in Lt; lia|]. destruct Pa as (Cl & d & St & Pa).
    assert (Xd : execution d) by (eapply execution_step; eauto). destruct (step_dec l t) as [(k & ->)|Nl].
    - pose proof (free_moves c t x k d X (proj1 Hl) Gr Nt St) as Mv. destruct (own_left c t k x n d X Hl St (moved_ne _ _ _ _ (proj1 Hl) Mv)) as [(q & Hq & Hn)|G].
      + apply (IH d _ (n - 1) c' Xd Hq); auto. unfold steps_of in *. simpl in Lt. rewrite Nat.eqb_refl in Lt. simpl in Lt. lia.
      + eapply path_gone; eauto.
    - apply (IH d x n c' Xd); auto; [exact (other_left c l t x n d X Cl Hl St Nl)|]. unfold steps_of in *. simpl in Lt. destruct l as [| u k| | |]; try exact Lt. destruct (Nat.eqb_spec u t) as [->|]; [now destruct (Nl k)|exact Lt].
  Qed.

  (** ** Fair endless executions *)
  Section Time.
    Variables (cs : nat -> wcfg V) (ls : nat -> option (wlabel V)).
    Hypothesis Start : execution (cs 0).
    Hypothesis Run : endless E P cs ls.
    Hypothesis Fair : fair cs ls.

    Lemma exec_at n : execution (cs n).
    Proof.
      induction n as [|n IH]; [assumption|]. pose proof (Run n) as R. unfold tick in R. destruct (ls n) as [l|]; [|now rewrite R].
      destruct R as [C St]. eapply execution_step; eauto.
    Qed.
    Lemma gone_later n m id : n <= m -> gone (cs n) id -> gone (cs m) id.
    Proof.
      intros Le G. induction Le as [|m Le IH]; [assumption|]. pose proof (Run m) as R. unfold tick in R. destruct (ls m) as [l|]; [|now rewrite R].
      destruct R as [C St]. exact (gone_step _ _ _ id (exec_ni _ (exec_at m)) IH St).
    Qed.
    (** one tick, seen by a thread inside a call *)
    Lemma tick_call n t x : wlookup t (w_run (cs n)) = Some x ->
      (wlookup t (w_run (cs (S n))) = Some x \/
       (moved (cs n) t x (cs (S n)) /\ ((exists q, wlookup t (w_run (cs (S n))) = Some (WCall (wc_id x) (wc_op x) (wc_from x) q) /\ child q (wc_prog x)) \/ gone (cs (S n)) (wc_id x)))) /\
      mle ro (w_mem (cs n)) (w_mem (cs (S n))).
    Proof.
      intros Lk. pose proof (Run n) as R. unfold tick in R. destruct (ls n) as [l|].
      - destruct R as [C St]. split; [|exact (step_le _ _ _ _ _ (exec_at n) C Lk St)]. destruct (step_dec l t) as [(k & ->)|Nl].
        + destruct (step_moved E (cs n) t k x _ (exec_ni _ (exec_at n)) Lk St) as [Q|Mv]; [left; now rewrite Q|]. right. split; [exact Mv|].
          exact (step_gone _ _ _ _ _ (exec_ni _ (exec_at n)) Lk St Mv).
        + left. exact (other_step _ _ _ _ _ (exec_at n) C Lk St Nl).
      - rewrite R. split; [now left|apply mle_refl].
    Qed.
    Lemma later n m t x : n <= m -> wlookup t (w_run (cs n)) = Some x ->
      (exists y, wlookup t (w_run (cs m)) = Some y /\ wc_id y = wc_id x /\ wc_op y = wc_op x /\ mle ro (w_mem (cs n)) (w_mem (cs m))) \/ gone (cs m) (wc_id x).
    Proof.
      intros Le Lk. induction Le as [|m Le IH]; [left; exists x; auto using mle_refl|]. destruct IH as [(y & Ly & Hi & Ho & Ml)|G]; [|right; eapply gone_later; [|exact G]; lia].
      destruct (tick_call m t y Ly) as [[L|[_ [(q & L & _)|G]]] Ml'].
      - left. exists y. repeat (split; [assumption|]). eapply mle_trans; eauto.
      - left. eexists. split; [exact L|]. simpl. repeat (split; [assumption|]). eapply mle_trans; eauto.
      - right. now rewrite <- Hi.
    Qed.
    Lemma next_turn n m t x : n <= m -> wlookup t (w_run (cs n)) = Some x ->
      (exists k, n <= k < m /\ wlookup t (w_run (cs k)) = Some x /\ moved (cs k) t x (cs (S k))) \/ wlookup t (w_run (cs m)) = Some x.
    Proof.
      intros Le Lk. induction Le as [|m Le IH]; [now right|]. destruct IH as [(k & Hk & Q)|Lm]; [left; exists k; split; [lia|assumption]|].
      destruct (tick_call m t x Lm) as [[L|[Mv _]] _]; [now right|]. left. exists m. auto.
    Qed.
    Lemma no_wait_ends n t x : (forall m y, n <= m -> wlookup t (w_run (cs m)) = Some y -> wc_id y = wc_id x -> wc_op y = wc_op x -> ~ blocked (w_mem (cs m)) (wc_prog y)) ->
      wlookup t (w_run (cs n)) = Some x -> exists m, n <= m /\ gone (cs m) (wc_id x).
    Proof.
      intros Nw Lk. remember (wc_prog x) as p eqn:Hp. revert n x Nw Lk Hp. induction (child_wf p) as [p _ IH]. intros n x Nw Lk Hp.
      assert (K : forall k, n <= k -> wlookup t (w_run (cs k)) = Some x -> moved (cs k) t x (cs (S k)) -> exists m, n <= m /\ gone (cs m) (wc_id x)).
      { intros k Hk Lx Mv. destruct (tick_call k t x Lx) as [[L|[_ [(q & L & C)|G]]] _].
        - exfalso. destruct Mv as [_ [(q & Lq & C & _)|[Lq _]]]; rewrite Lq in L; [|discriminate]. injection L as L.
          apply (f_equal wc_prog) in L. simpl in L. rewrite <- L in C. pose proof (no_loop q) as NL.
          destruct q as [r|m|a kk|a ag kk]; simpl in C; try contradiction; destruct C as (y & e); apply (NL y); symmetry; exact e.
        - destruct (IH q) with (n := S k) (x := WCall (wc_id x) (wc_op x) (wc_from x) q) as (m & Hm & G); auto.
          + now rewrite Hp.
          + intros m y Hm. apply Nw. lia.
          + exists m. split; [lia|exact G].
        - exists (S k). split; [lia|exact G]. }
      destruct (Fair n t x Lk) as (m & Hm & Hl). destruct (next_turn n m t x Hm Lk) as [(k & Hk & Lx & Mv)|Lm].
      - apply (K k); auto. lia.
      - apply (K m Hm Lm). destruct (execution_world E ro _ _ _ _ (exec_at m)) as (EOK & g & f & Wo). pose proof (Run m) as R. unfold tick in R. rewrite Hl in R. destruct R as [_ St].
        destruct (front_step E ro EOK (cs m) g f t x Wo Lm) as [[Bk _]|(_ & c' & St' & Mv)]; [exfalso; eapply Nw; eauto|]. rewrite St in St'. injection St' as ->. exact Mv.
    Qed.

    (** without new calls everything ends *)
    Lemma fair_rest : (forall n t o from, ls n <> Some (WInv t o from)) -> (forall n, no_overrun (cs n)) -> never_waits_holding (cs 0) -> exists n, w_run (cs n) = [].
    Proof.
      intros Ni Np Nw0.
      assert (Nw : forall n, never_waits_holding (cs n)).
      { induction n as [|n IH]; [assumption|]. pose proof (Run n) as R. unfold tick in R. destruct (ls n) as [l|] eqn:Hl; [|now rewrite R]. destruct R as [C St].
        destruct l as [t o from|t k|t u| |r].
        - now destruct (Ni n t o from).
        - assert (Lk : exists x, wlookup t (w_run (cs n)) = Some x) by (simpl in St; unfold wstep_thread in St; destruct (wlookup t (w_run (cs n))); [eauto|discriminate]). destruct Lk as (x & Lk).
          destruct (step_moved E _ t k x _ (exec_ni _ (exec_at n)) Lk St) as [->|Mv]; [assumption|]. eapply nwh_moved; eauto.
        - simpl in St. injection St as <-. assumption.
        - simpl in St. destruct (w_run (cs n)); [|discriminate]. destruct (latest _ <=? latest _); [|discriminate]. injection St as <-. intros u z H. discriminate.
        - simpl in St. destruct (w_run (cs n)) eqn:R; [|discriminate]. destruct (reserve E _ _ r); injection St as <-; [intros u z H; discriminate|]. assumption. }
      set (ts := map fst (w_run (cs 0))). assert (Nt : NoDup ts) by apply (ni_nd _ (exec_ni _ Start)).
      pose proof (look_ts (cs 0)) as Hts. change (forall u y, wlookup u (w_run (cs 0)) = Some y -> In u ts) in Hts. clearbody ts.
      set (now c := map (fun t => match wlookup t (w_run c) with Some x => Some (wc_prog x) | None => None end) ts).
      (* one tick changes nothing or makes the multiset of programs smaller *)
      assert (Tk : forall n, (forall u y, wlookup u (w_run (cs n)) = Some y -> In u ts) ->
        (forall u y, wlookup u (w_run (cs (S n))) = Some y -> In u ts) /\ (now (cs (S n)) = now (cs n) /\ (forall u, wlookup u (w_run (cs (S n))) = wlookup u (w_run (cs n))) /\ (w_run (cs n) <> [] -> w_mem (cs (S n)) = w_mem (cs n)) \/ one_less less (now (cs (S n))) (now (cs n)))).
      { intros n Hn. pose proof (Run n) as R. unfold tick in R. destruct (ls n) as [l|] eqn:Hl; [|rewrite R; auto]. destruct R as [C St].
        destruct l as [t o from|t k|t u| |r].
        - now destruct (Ni n t o from).
        - assert (Lk : exists x, wlookup t (w_run (cs n)) = Some x) by (simpl in St; unfold wstep_thread in St; destruct (wlookup t (w_run (cs n))); [eauto|discriminate]). destruct Lk as (x & Lk).
          destruct (step_moved E _ t k x _ (exec_ni _ (exec_at n)) Lk St) as [->|Mv]; [auto|]. destruct (moved_run ts _ t x _ Nt Lk Mv Hn) as [D H']. split; [exact H'|now right].
        - simpl in St. injection St as <-. simpl. auto.
        - simpl in St. destruct (w_run (cs n)) eqn:R; [|discriminate]. destruct (latest _ <=? latest _); [|discriminate]. injection St as <-. simpl. split; [intros; discriminate|]. left. split; [unfold now; simpl; rewrite R; reflexivity|]. split; [reflexivity|congruence].
        - simpl in St. destruct (w_run (cs n)) eqn:R; [|discriminate]. destruct (reserve E _ _ r); injection St as <-; simpl; rewrite ?R; (split; [intros; discriminate|left; split; [unfold now; simpl; rewrite ?R; reflexivity|split; [rewrite ?R; reflexivity|congruence]]]). }
      assert (G : forall l n, l = now (cs n) -> (forall u y, wlookup u (w_run (cs n)) = Some y -> In u ts) -> exists m, w_run (cs m) = []).
      { intros l. induction (one_less_wf less less_wf l) as [l _ IH]. intros n Hl Hn.
        destruct (w_run (cs n)) as [|[t x] r] eqn:R; [eauto|]. pose proof (look_in (cs n) t x r R) as Lk. rewrite <- R in Hn.
        destruct (execution_world E ro _ _ _ _ (exec_at n)) as (EOK & g & f & Wo). destruct (someone E ro EOK (cs n) g f t x Wo Lk (Np n) (Nw n)) as (u & z & Lu & Nb).
        destruct (Fair n u z Lu) as (m & Hm & Hl').
        (* up to the turn of [u] either the programs got smaller or nothing changed *)
        assert (K : forall j, n <= j -> (exists k, n <= k /\ one_less less (now (cs k)) l /\ (forall u y, wlookup u (w_run (cs k)) = Some y -> In u ts)) \/
                      (now (cs j) = l /\ (forall u y, wlookup u (w_run (cs j)) = Some y -> In u ts) /\ (forall v, wlookup v (w_run (cs j)) = wlookup v (w_run (cs n))) /\ w_mem (cs j) = w_mem (cs n))).
        { intros j Le. induction Le as [|j Le IHj]; [right; rewrite Hl; auto|]. destruct IHj as [Q|(Q1 & Q2 & Q3 & Q4)]; [now left|].
          destruct (Tk j Q2) as [T1 [(T2 & T3 & T4)|T2]]; [right|left].
          - split; [congruence|]. split; [exact T1|]. split; [intros v; now rewrite T3|]. rewrite T4; [exact Q4|]. intros e. specialize (Q3 u). rewrite e, Lu in Q3. discriminate.
          - exists (S j). split; [lia|]. split; [now rewrite <- Q1|exact T1]. }
        destruct (K m Hm) as [(k & Hk & D & Hk')|(Q1 & Q2 & Q3 & Q4)]; [exact (IH _ D k eq_refl Hk')|].
        (* [u] is not blocked at its turn either, or somebody else moved: all programs are as at [n] *)
        destruct (K (S m) ltac:(lia)) as [(k & Hk & D & Hk')|(T1 & T2 & T3 & T4)]; [exact (IH _ D k eq_refl Hk')|].
        exfalso. pose proof (Run m) as Rm. unfold tick in Rm. rewrite Hl' in Rm. destruct Rm as [_ St]. assert (Lm : wlookup u (w_run (cs m)) = Some z) by now rewrite Q3.
        destruct (execution_world E ro _ _ _ _ (exec_at m)) as (EOK' & g' & f' & Wo'). destruct (front_step E ro EOK' (cs m) g' f' u z Wo' Lm) as [[Bk _]|(_ & c' & St' & Mv)].
        - apply Nb. now rewrite <- Q4.
        - rewrite St in St'. injection St' as <-. apply (moved_ne _ _ _ _ Lm) in Mv as Ne. destruct Mv as [_ [(q & Lq & C & _)|[Lq _]]]; rewrite T3, Lu in Lq; [|discriminate].
          injection Lq as Lq. apply (f_equal wc_prog) in Lq. simpl in Lq. rewrite Lq in C. pose proof (no_loop q) as NL.
          destruct q as [r'|m'|a kk|a ag kk]; simpl in C; try contradiction; destruct C as (y & e); apply (NL y); symmetry; exact e. }
      exact (G _ 0 eq_refl Hts).
    Qed.

    (** growth calls do not starve *)
    Lemma cap_le (M M' : wmem V) g g' : WI E ro M g -> WI E ro M' g' -> mle ro M M' -> latest (m_cap M) <= latest (m_cap M').
    Proof.
      intros W W' Ml. destruct (wi_ne _ _ _ _ W) as (_ & _ & Nc). unfold latest at 1. destruct (nth_error (m_cap M) (last_ts (m_cap M))) as [m|] eqn:Q; [|lia].
      apply (cap_msgs E ro M' g' (last_ts (m_cap M)) m W'). eapply prefix_nth; [exact (le_cap _ _ _ Ml)|exact Q].
    Qed.
    Lemma growth_ends b : forall n t x, (forall m, no_overrun (cs m)) -> wlookup t (w_run (cs n)) = Some x -> grows (wc_op x) = true ->
      block (wc_id x) (w_mem (cs n)) b (request (wc_op x)) -> exists m, n <= m /\ gone (cs m) (wc_id x).
    Proof.
      induction b as [b IHb] using (well_founded_induction lt_wf). intros n t x Np Lk Gr Bx.
      (* the capacity reaches [b] *)
      assert (A : forall d n x, b - latest (m_cap (w_mem (cs n))) <= d -> wlookup t (w_run (cs n)) = Some x -> grows (wc_op x) = true -> block (wc_id x) (w_mem (cs n)) b (request (wc_op x)) ->
                (exists m, n <= m /\ gone (cs m) (wc_id x)) \/
                exists m y, n <= m /\ wlookup t (w_run (cs m)) = Some y /\ wc_id y = wc_id x /\ wc_op y = wc_op x /\ block (wc_id y) (w_mem (cs m)) b (request (wc_op y)) /\ b <= latest (m_cap (w_mem (cs m)))).
      { clear n x Lk Gr Bx. induction d as [|d IHd]; intros n x Hd Lk Gr Bx.
        { right. exists n, x. repeat (split; [first [assumption|lia|reflexivity]|]). lia. }
        destruct (Nat.le_gt_cases b (latest (m_cap (w_mem (cs n))))) as [Le|Gt]; [right; exists n, x; repeat (split; [first [assumption|lia|reflexivity]|]); lia|].
        destruct (execution_world E ro _ _ _ _ (exec_at n)) as (EOK & g & f & Wo). pose proof Wo as (S0 & B0 & _). pose proof (si_wi _ _ _ _ S0) as W.
        pose proof (block_top E ro _ _ _ _ _ W Bx) as Tp.
        destruct (cap_holder E ro _ _ _ Wo) as [(u & z & b' & Lu & Gz & Bz & _ & Hb)|(id & o & m & b' & k & Hin & Go & _)]; [lia| |destruct (Np n _ _ _ Hin Go)].
        destruct (IHb b' ltac:(lia) n u z Np Lu Gz Bz) as (m & Hm & G).
        destruct (later n m t x Hm Lk) as [(y & Ly & Hi & Ho & Ml)|Gx]; [|left; eauto].
        destruct (execution_world E ro _ _ _ _ (exec_at m)) as (_ & g' & f' & Wo'). pose proof Wo' as (S1 & B1 & _). pose proof (si_wi _ _ _ _ S1) as W'.
        pose proof (cap_le _ _ _ _ W W' Ml) as Cl. pose proof (block_le ro _ _ _ _ _ Ml Bx) as Bx'.
        assert (Lt : latest (m_cap (w_mem (cs n))) < latest (m_cap (w_mem (cs m)))).
        { destruct (Nat.eq_dec (latest (m_cap (w_mem (cs n)))) (latest (m_cap (w_mem (cs m))))) as [e|]; [exfalso|lia]. pose proof (block_top E ro _ _ _ _ _ W' Bx') as Tp'.
          destruct (cap_holder E ro _ _ _ Wo') as [(u2 & z2 & b2 & Lu2 & _ & Bz2 & _ & Hb2)|(id & o & m' & b2 & k & Hin & Go & _)]; [lia| |destruct (Np m _ _ _ Hin Go)].
          apply (proj1 G u2 z2 Lu2). refine (block_disj E ro _ _ _ _ _ _ _ _ (latest (m_cap (w_mem (cs m)))) W' Bz2 (block_le ro _ _ _ _ _ Ml Bz) Hb2 _). lia. }
        rewrite <- Hi, <- Ho in Bx'. destruct (IHd m y ltac:(lia) Ly ltac:(congruence) Bx') as [(m2 & Hm2 & G2)|(m2 & y2 & Hm2 & L2 & Hi2 & Ho2 & Q)].
        - left. exists m2. split; [lia|congruence].
        - right. exists m2, y2. split; [lia|]. split; [exact L2|]. split; [congruence|]. split; [congruence|exact Q]. }
      destruct (A _ n x (le_n _) Lk Gr Bx) as [|(m & y & Hm & Ly & Hi & Ho & By & Cb)]; [assumption|].
      destruct (no_wait_ends m t y) as (k & Hk & G); [|exact Ly|exists k; split; [lia|congruence]].
      intros k v Hk Lv Hiv Hov Bk. destruct (execution_world E ro _ _ _ _ (exec_at k)) as (EOK & g & f & Wo). pose proof Wo as (S0 & B0 & _). pose proof (si_wi _ _ _ _ S0) as W.
      destruct (later m k t y Hk Ly) as [(v' & Lv' & _ & _ & Ml)|[Ov _]]; [|exact (Ov t v Lv Hiv)].
      destruct (execution_world E ro _ _ _ _ (exec_at m)) as (_ & g' & f' & (S1 & _)). pose proof (cap_le _ _ _ _ (si_wi _ _ _ _ S1) W Ml) as Cl.
      pose proof (block_le ro _ _ _ _ _ Ml By) as By'. destruct (waiting E ro _ _ _ t v Wo Lv Bk) as [(i & u & z & _ & _ & _ & _ & Ti & _)|(_ & b2 & ag & kk & _ & B2 & Lt & _)].
      - rewrite Hov, Ho in Ti. destruct (wc_op x); try discriminate Gr; destruct Ti.
      - rewrite <- Hiv, <- Hov in By'. destruct (block_same E _ _ _ _ _ _ B0 B2 By'). lia.
    Qed.
  End Time.
End Run.
