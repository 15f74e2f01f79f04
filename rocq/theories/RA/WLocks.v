(** * Which elements the running calls of the view machine hold, and where they wait. *)

From Coq Require Import List Arith Bool Lia.
From Verif.Model Require Import Prog Mem Deps State Elem Vec Excl Machine.
From Verif Require Import Client.
From Verif.Logic Require Import Shape Clients Locks Progress.
From Verif.RA Require Import Weak WFair WInv WStep WSlots WSpecs WOps WSound.
Import ListNotations.
Local Arguments Nat.leb : simpl never.
Local Arguments Nat.ltb : simpl never.
Local Arguments Nat.eqb : simpl never.
Local Arguments Nat.add : simpl never.
Local Arguments Nat.sub : simpl never.
Local Arguments Nat.max : simpl never.
Local Arguments Nat.modulo : simpl never.
Local Notation rel := Weak.rel.
Local Notation calm := Locks.calm.
Local Notation fits := Locks.fits.
Local Notation waits := WFair.waits.

Section WLocks.
  Context {V : Type} (E : env V) (ro : bool).
  Hypothesis EOK : env_ok E.
  Notation wmem := (wmem V).
  Notation SI := (SI E ro).
  Notation BI := (BI E).
  Notation WI := (WI E ro).
  Implicit Types (c : wcfg V) (M : wmem) (g : nat -> wgst) (f : nat -> list nat * nat) (p : prog V (ret V)).

  Definition top (l : list (msg st)) : st := match nth_error l (last_ts l) with Some m => mval m | None => NONE end.
  Lemma top_snoc l m : top (l ++ [m]) = mval m.
  Proof. unfold top. now rewrite last_ts_snoc, nth_last. Qed.

  Lemma locked_top M g i : WI M g -> ((exists id, g i = GLock id) <-> top (ws (sl M i)) = RESERVED).
  Proof.
    intros W. pose proof (wi_slot _ _ _ _ W i) as Sl. unfold top. split.
    - intros (id & e). rewrite e in Sl. destruct Sl as [_ (m & A & B & _)]. now rewrite A.
    - intros H. destruct (g i) as [|id|id| | |id]; simpl in Sl; try (rewrite Sl in H; simpl in H; discriminate); eauto.
      + destruct Sl as (v & e). rewrite e in H. discriminate.
      + destruct Sl as [_ (m & A & B & _)]. rewrite A, B in H. discriminate.
  Qed.

  (** ** One access *)
  Lemma wexec_held id (a : act V) k M tv y M' tv' g H i : WI M g -> wexec E id a k M tv = WDone y M' tv' -> top (ws (sl M' i)) = RESERVED ->
    In i (held H a y) \/ (top (ws (sl M i)) = RESERVED /\ (In i H -> In i (held H a y))) \/ a = StoreSt i RESERVED.
  Proof.
    intros W. destruct a; cbn [wexec held res]; unfold with_wslot; intros X Hr;
      repeat match goal with
             | H : context [if ?b then _ else _] |- _ => let Q := fresh "Q" in destruct b eqn:Q
             | H : context [match ?b with _ => _ end] |- _ => let Q := fresh "Q" in destruct b eqn:Q
             end; try discriminate; injection X as <- <- <-; unfold sl, put_slot in *; cbn [m_slots fst] in *; unfold upd in *; auto;
      repeat match goal with
             | H : context [?x =? ?y] |- _ => destruct (Nat.eqb_spec x y); subst; cbn [ws] in *
             end; rewrite ?top_snoc in Hr; cbn [mval] in Hr; try (left; left; reflexivity); auto; try congruence; try discriminate.
    all: try (left; now left).
    all: try (right; right; congruence).
    all: try (right; left; split; [assumption|]; now apply in_remove1).
    all: try (right; left; split; [assumption|]; now right).
    destruct ((capv M tv <=? i) && (i <? n0)); [discriminate|]. right. left. auto.
  Qed.

  Lemma wexec_known id (a : act V) k M tv y M' tv' g g' w : WI M g -> WI M' g' -> mle ro M M' -> vle tv tv' -> vok M' tv' -> wexec E id a k M tv = WDone y M' tv' ->
    seen_wrtn M tv w -> fits w a y /\ seen_wrtn M' tv' (known w a y).
  Proof.
    intros W W' Le Lv Ok X S. assert (Up : seen_wrtn M' tv' w) by (eapply (seen_wrtn_up E ro); eauto; now exists g').
    destruct a; cbn [fits known]; try (split; [exact I|assumption]).
    - simpl in X. destruct (nth_error (m_wrtn M) k) as [m|] eqn:Q; [|discriminate]. destruct (Nat.leb_spec (v_wrtn tv) k) as [Hk|]; [|discriminate].
      injection X as <- <- <-. destruct S as (m' & A & B). split.
      + pose proof (wi_wrtn _ _ _ _ W _ _ _ _ Hk A Q). lia.
      + assert (Hv : k <= v_wrtn (acq o m (set_wrtn k tv))) by (apply (vle_acq o m (set_wrtn k tv))).
        destruct Ok as (_ & Ok & _). destruct (nth_error (m_wrtn M) (v_wrtn (acq o m (set_wrtn k tv)))) as [m2|] eqn:Q2; [|apply nth_error_None in Q2; lia].
        exists m2. split; [assumption|]. apply (wi_wrtn _ _ _ _ W _ _ _ _ Hv Q Q2).
    - split; [exact I|]. simpl in X. destruct (nth_error (m_wrtn M) (last_ts (m_wrtn M))) as [m|] eqn:Q; [|discriminate]. injection X as <- <- <-. destruct S as (m' & A & B).
      set (tv1 := acq o m (set_wrtn (length (m_wrtn M)) tv)) in *. assert (Hv : length (m_wrtn M) <= v_wrtn tv1) by (apply (vle_acq o m (set_wrtn (length (m_wrtn M)) tv))).
      set (M1 := WMem _ _ _ _ _ _) in *. destruct Ok as (_ & Ok & _). destruct (nth_error (m_wrtn M1) (v_wrtn tv1)) as [m2|] eqn:Q2; [|apply nth_error_None in Q2; lia].
      exists m2. split; [assumption|].
      assert (Q3 : nth_error (m_wrtn M1) (length (m_wrtn M)) = Some (Msg (Nat.max (mval m) n) (rel o m tv1) true id)) by apply nth_last.
      pose proof (wi_wrtn _ _ _ _ W' _ _ _ _ Hv Q3 Q2) as Mo. simpl in Mo.
      assert (v_wrtn tv <= last_ts (m_wrtn M)) by (unfold last_ts; assert (v_wrtn tv < length (m_wrtn M)) by (apply nth_error_Some; congruence); lia).
      pose proof (wi_wrtn _ _ _ _ W _ _ _ _ H A Q). lia.
  Qed.

  (** ** The invariant *)
  Notation calm_call x H w := (calm (self_swap (wc_op x)) (waits_holding E (wc_op x)) (fun (_ : ret V) H' (_ : nat) => H' = []) H w (wc_prog x)).
  Definition wbase M (x : wcall V) : Prop :=
    (grows (wc_op x) = true /\ wc_prog x = op_prog E (wc_op x)) \/
    (grows (wc_op x) = true /\ exists b, block (wc_id x) M b (request (wc_op x)) /\ loops b (wc_prog x)) \/
    (grows (wc_op x) = false /\ loops 0 (wc_prog x)).
  Definition first_add (n : nat) p : Prop :=
    match p with
    | Act a k => match a as a' return (res a' -> prog V (ret V)) -> Prop with
                 | AddResv n' _ => fun k => n' = n /\ forall b : nat, loops b (k b)
                 | _ => fun _ => False
                 end k
    | _ => False
    end.
  Record HI c g f : Prop := MkHI {
    h_calm : forall t x, wlookup t (w_run c) = Some x -> calm_call x (fst (f t)) (snd (f t));
    h_touch : forall t x i, wlookup t (w_run c) = Some x -> In i (fst (f t)) -> touches (wc_op x) i;
    h_len : forall t x, wlookup t (w_run c) = Some x -> seen_wrtn (w_mem c) (w_view c t) (snd (f t));
    h_lock : forall i id, g i = GLock id -> exists t x, wlookup t (w_run c) = Some x /\ wc_id x = id /\ In i (fst (f t));
    h_base : forall t x, wlookup t (w_run c) = Some x -> wbase (w_mem c) x;
    h_own : forall i id, g i = GOwn id \/ g i = GWr id -> exists b n, block id (w_mem c) b n /\ b <= i < b + n
  }.
  Definition world c g f : Prop := SI c g /\ BI c /\ HI c g f.

  Definition put f t v : nat -> list nat * nat := fun u => if u =? t then v else f u.
  Lemma wbase_le M M' x : mle ro M M' -> wbase M x -> wbase M' x.
  Proof.
    intros Le [H|[(H & b & B & L)|H]]; [now left| |now right; right]. right. left. split; [assumption|]. exists b. split; [|assumption]. eapply (block_le ro); eauto.
  Qed.

  Lemma access_world c g f t x (a : act V) k y M' tv' (kk : res a -> prog V (ret V)) :
    world c g f -> wlookup t (w_run c) = Some x -> (wc_prog x = Act a kk \/ exists ag, wc_prog x = Spin a ag kk /\ ag y = false) ->
    wexec E (wc_id x) a k (w_mem c) (w_view c t) = WDone y M' tv' ->
    exists g' f', world (wafter t c x (kk y) M' tv') g' f' /\ guar ro (wc_id x) (w_mem c) g M' g'.
  Proof.
    intros (S & B & Hi) Lk Hp Ex. pose proof (si_wi _ _ _ _ S) as W. pose proof (si_ni _ _ _ _ S) as N.
    assert (St : wstep E c (WStep t k) = WNext (wafter t c x (kk y) M' tv')).
    { simpl. unfold wstep_thread. rewrite Lk. destruct Hp as [->|(ag & -> & Ag)]; rewrite Ex; [reflexivity|now rewrite Ag]. }
    destruct (si_run _ _ _ _ S t x Lk) as (F1 & F2 & L & Vw & Wp). pose proof (BI_fits _ _ B t x Lk) as Fx.
    assert (K : exists g' L', WI M' g' /\ wview ro M' g' (wc_id x) tv' L' /\ guar ro (wc_id x) (w_mem c) g M' g' /\ vle (w_view c t) tv' /\
                wp E ro (wc_id x) (post ro (wc_id x) (wc_from x) (wc_op x)) (ppost (wc_id x) (grows (wc_op x)) (wc_op x)) (kk y) L' M' tv').
    { destruct Hp as [Hp|(ag & Hp & Ag)]; rewrite Hp in Wp, Fx; simpl in Wp;
        specialize (Wp (w_mem c) (w_view c t) (mle_refl _ _) (vle_refl _) (ex_intro _ g W) (si_view _ _ _ _ S t) (w_mem c) g k (mle_refl _ _) W Vw); rewrite Ex in Wp.
      - destruct Wp as [Wp|(_ & g' & L' & A)]; [exact Fx|discriminate|]. exists g', L'. exact A.
      - destruct Wp as [Wp|(_ & g' & L' & A)]; [exact Fx|congruence|]. exists g', L'. exact A. }
    destruct K as (g' & L' & W' & Vw' & Gu & Lv & Wp'). pose proof (proj1 Gu) as Le.
    pose proof (NI_step E _ _ _ N St) as N'.
    assert (S' : SI (wafter t c x (kk y) M' tv') g') by (eapply SI_after; eauto).
    assert (B' : BI (wafter t c x (kk y) M' tv')) by exact (BI_step E ro c g (WStep t k) _ S B I St).
    pose proof (h_calm _ _ _ Hi t x Lk) as Cx.
    assert (Fr : forall z, fits (snd (f t)) a z -> calm (self_swap (wc_op x)) (waits_holding E (wc_op x)) (fun _ H _ => H = []) (held (fst (f t)) a z) (known (snd (f t)) a z) (kk z)).
    { destruct Hp as [Hp|(ag & Hp & _)]; rewrite Hp in Cx; apply Cx. }
    destruct (wexec_known _ _ _ _ _ _ _ _ g g' (snd (f t)) W W' Le Lv (vw_ok _ _ _ _ _ _ Vw') Ex (h_len _ _ _ Hi t x Lk)) as [Ft Kn].
    assert (Ph : (forall i e n, a = CasSt i e n -> touches (wc_op x) i) /\ forall i, a <> StoreSt i RESERVED).
    { pose proof (b_ph _ _ B t x Lk) as Ph. assert (T : (exists n r, a = AddResv n r) \/ act_ok (touches (wc_op x)) (makes (wc_op x)) a).
      { destruct Ph as [[Gr Hx]|Tl].
        - left. destruct (grow_shape E (wc_op x) Gr) as (k' & Hk & _). rewrite Hk in Hx. destruct Hp as [Hp|(ag & Hp & _)]; rewrite Hp in Hx; [|discriminate].
          exists (request (wc_op x)), Relaxed. congruence.
        - right. unfold tail in Tl. destruct Hp as [Hp|(ag & Hp & _)]; rewrite Hp in Tl; apply Tl. }
      destruct T as [(n & r & ->)|T]; [split; intros; discriminate|]. split; [intros i e n ->; exact T|]. intros i ->. now apply T. }
    destruct Ph as [R1 R2].
    set (x' := WCall (wc_id x) (wc_op x) (wc_from x) (kk y)).
    assert (Lx : forall u z, wlookup u (w_run (wafter t c x (kk y) M' tv')) = Some z -> (u = t /\ z = x') \/ (u <> t /\ wlookup u (w_run c) = Some z)).
    { intros u z H. apply (put_look _ _ _ _ _ (ni_nd _ N)) in H. exact H. }
    assert (Lx' : forall u, wlookup u (w_run (wafter t c x (kk y) M' tv')) = if u =? t then Some x' else wlookup u (w_run c)).
    { intros u. simpl. destruct (Nat.eqb_spec u t); [reflexivity|]. now apply wlook_other. }
    exists g', (put f t (held (fst (f t)) a y, known (snd (f t)) a y)). split; [|exact Gu]. split; [exact S'|]. split; [exact B'|]. constructor; unfold put.
    - intros u z H. apply Lx in H as [[-> ->]|[Ne H]]; [rewrite Nat.eqb_refl; simpl; now apply Fr|]. destruct (Nat.eqb_spec u t); [congruence|]. now apply (h_calm _ _ _ Hi).
    - intros u z i H. apply Lx in H as [[-> ->]|[Ne H]]; [rewrite Nat.eqb_refl|destruct (Nat.eqb_spec u t); [congruence|now apply (h_touch _ _ _ Hi)]]. simpl. intros Hin.
      assert (In i (fst (f t)) \/ exists e n, a = CasSt i e n) as [Hj|(e & n & ->)].
      { clear - Hin. destruct a; simpl in Hin; auto.
        - destruct (fst y); [|auto]. destruct Hin as [->|Hin]; eauto.
        - left. clear - Hin. induction (fst (f t)) as [|u H IH]; simpl in *; [exact Hin|].
          destruct (i0 =? u); [auto|]. destruct Hin; auto. }
      + eapply (h_touch _ _ _ Hi); eauto.
      + eapply R1; reflexivity.
    - intros u z H. simpl w_mem. simpl w_view. unfold upd. apply Lx in H as [[-> ->]|[Ne H]]; [rewrite Nat.eqb_refl; simpl; exact Kn|]. destruct (Nat.eqb_spec u t); [congruence|].
      eapply (seen_wrtn_up E ro (w_mem c) (w_view c u) M'); [exact Le|apply vle_refl|now exists g'| |].
      + eapply vok_le; [exact Le|]. apply (si_view _ _ _ _ S).
      + exact (h_len _ _ _ Hi u z H).
    - intros i id Hg.
      assert (Ht : top (ws (sl M' i)) = RESERVED) by (apply (locked_top M' g' i W'); eauto).
      assert (Old : top (ws (sl (w_mem c) i)) = RESERVED -> (In i (fst (f t)) -> In i (held (fst (f t)) a y)) -> g i = GLock id /\ (id = wc_id x -> In i (held (fst (f t)) a y))).
      { intros Hr Hh. destruct (proj2 (locked_top _ g i W) Hr) as (id2 & Hg2).
        assert (G : g i = GLock id).
        { destruct (Nat.eq_dec id2 (wc_id x)) as [e2|N2].
          - destruct (Nat.eq_dec id (wc_id x)) as [e|N1]; [congruence|]. apply (proj2 Gu id N1) in Hg. exact Hg.
          - assert (g' i = GLock id2) by (apply (proj2 Gu id2 N2); exact Hg2). congruence. }
        split; [exact G|]. intros ->. apply Hh. destruct (h_lock _ _ _ Hi i _ G) as (u & z & Lu & Hid & Hin).
        rewrite <- (ni_ids _ N u t z x Lu Lk Hid). exact Hin. }
      assert (Own : id = wc_id x -> In i (held (fst (f t)) a y) -> exists u z, wlookup u (w_run (wafter t c x (kk y) M' tv')) = Some z /\ wc_id z = id /\
                 In i (fst (if u =? t then (held (fst (f t)) a y, known (snd (f t)) a y) else f u))).
      { intros e Hin. exists t, x'. rewrite Lx', Nat.eqb_refl. auto. }
      destruct (Nat.eq_dec id (wc_id x)) as [e|Ne].
      + apply Own; [exact e|]. destruct (wexec_held _ _ _ _ _ _ _ _ g (fst (f t)) i W Ex Ht) as [Q|[(Q1 & Q2)|Q]]; [exact Q| |now apply R2 in Q].
        apply Old; auto.
      + assert (G : g i = GLock id) by (apply (proj2 Gu id Ne); exact Hg). destruct (h_lock _ _ _ Hi i id G) as (u & z & Lu & Hid & Hin).
        exists u, z. rewrite Lx'. destruct (Nat.eqb_spec u t) as [->|]; [rewrite Lk in Lu; injection Lu as <-; congruence|]. auto.
    - intros u z H. simpl w_mem. apply Lx in H as [[-> ->]|[Ne H]]; [|eapply wbase_le; [exact Le|]; now apply (h_base _ _ _ Hi u)].
      destruct (h_base _ _ _ Hi t x Lk) as [[Gr Hx]|[(Gr & b & Bl & Lo)|[Gr Lo]]].
      + right. left. split; [exact Gr|]. simpl.
        assert (Q : first_add (request (wc_op x)) (Act a kk)).
        { destruct (grow_loops E (wc_op x) Gr) as (k' & Hk & Lo). rewrite Hk in Hx. destruct Hp as [Hp|(ag & Hp & _)]; rewrite Hp in Hx; [|discriminate]. rewrite Hx. split; [reflexivity|exact Lo]. }
        assert (Fa : WStep.fits E a (w_mem c)) by (destruct Hp as [Hp|(ag & Hp & _)]; rewrite Hp in Fx; exact Fx).
        clear - Q Ex Fa W. destruct a; try (destruct Q; fail). destruct Q as [-> Lo]. simpl in Fa, Ex. unfold Weak.latest in Fa.
        destruct (nth_error (m_resv (w_mem c)) (last_ts (m_resv (w_mem c)))) as [m|] eqn:Qm; [|discriminate]. injection Ex as <- <- <-.
        exists (mval m). split; [|apply Lo]. exists (last_ts (m_resv (w_mem c))). eexists. exists m. cbn [m_resv].
        destruct (wi_ne _ _ _ _ W) as (Nr & _ & _).
        assert (Ls : S (last_ts (m_resv (w_mem c))) = length (m_resv (w_mem c))) by (unfold last_ts; destruct (m_resv (w_mem c)); [congruence|simpl; lia]).
        rewrite Ls, nth_last, nth_error_app1 by lia. repeat (split; [first [assumption|reflexivity]|]). split; [|reflexivity]. simpl. now apply Nat.mod_small.
      + right. left. split; [exact Gr|]. exists b. split; [eapply (block_le ro); eauto|]. simpl.
        destruct Hp as [Hp|(ag & Hp & _)]; rewrite Hp in Lo; apply Lo.
      + right. right. split; [exact Gr|]. simpl. destruct Hp as [Hp|(ag & Hp & _)]; rewrite Hp in Lo; apply Lo.
    - intros i id Hg. simpl w_mem.
      assert (Old : g i = GOwn id \/ g i = GWr id -> exists b n, block id M' b n /\ b <= i < b + n).
      { intros H. destruct (h_own _ _ _ Hi i id H) as (b & n & Bb & Hb). exists b, n. split; [eapply (block_le ro); eauto|exact Hb]. }
      destruct (Nat.eq_dec id (wc_id x)) as [->|Ne].
      2:{ apply Old. destruct (proj2 Gu id Ne) as (G1 & G2 & _). rewrite <- G1, <- G2. exact Hg. }
      assert (Oth : forall j, g i = GOwn j \/ g i = GWr j -> j = wc_id x).
      { intros j Hj. destruct (Nat.eq_dec j (wc_id x)) as [|Nj]; [assumption|]. destruct (proj2 Gu j Nj) as (G1 & G2 & _). rewrite <- G1, <- G2 in Hj. destruct Hg, Hj; congruence. }
      assert (Fre : g i = GFree -> exists b n, block (wc_id x) M' b n /\ b <= i < b + n).
      { intros Hf. apply (wi_free _ _ _ _ W) in Hf. assert (Lt : i < latest (m_resv M')).
        { destruct (Nat.lt_ge_cases i (latest (m_resv M'))) as [|X]; [assumption|]. apply (wi_free _ _ _ _ W') in X. destruct Hg; congruence. }
        assert (Fa : WStep.fits E a (w_mem c)) by (destruct Hp as [Hp|(ag & Hp & _)]; rewrite Hp in Fx; exact Fx).
        destruct (wexec_resv E _ _ _ _ _ _ _ _ Ex) as [(n & r & -> & v & Hr)|[_ Hr]]; [|rewrite Hr in Lt; lia].
        exists (latest (m_resv (w_mem c))), n. rewrite Hr, latest_snoc in Lt. simpl in Lt, Fa. rewrite Nat.mod_small in Lt by exact Fa. split; [|lia].
        destruct (wi_ne _ _ _ _ W) as (Nr & _ & _). unfold latest. unfold last_ts.
        assert (Hl : length (m_resv (w_mem c)) <> 0) by (destruct (m_resv (w_mem c)); [congruence|simpl; lia]).
        destruct (nth_error (m_resv (w_mem c)) (length (m_resv (w_mem c)) - 1)) as [m|] eqn:Qm; [|apply nth_error_None in Qm; lia].
        assert (Lm : latest (m_resv (w_mem c)) = mval m) by (unfold latest, last_ts; now rewrite Qm).
        exists (length (m_resv (w_mem c)) - 1), (Msg ((latest (m_resv (w_mem c)) + n) mod wmod E) v true (wc_id x)), m. rewrite Hr.
        replace (Datatypes.S (length (m_resv (w_mem c)) - 1)) with (length (m_resv (w_mem c))) by lia. rewrite nth_error_app1 by lia. rewrite nth_last.
        repeat (split; [first [assumption|reflexivity]|]). split; [|reflexivity]. simpl. rewrite Nat.mod_small by exact Fa. congruence. }
      assert (Ps : g i = GHas \/ (exists j, g i = GLock j) -> False).
      { intros Hh. assert (Q : exists m, nth_error (ws (sl (w_mem c) i)) (last_ts (ws (sl (w_mem c) i))) = Some m /\ mval m <> NONE).
        { pose proof (wi_slot _ _ _ _ W i) as Sl. destruct Hh as [Hh|(j & Hh)]; rewrite Hh in Sl; destruct Sl as [_ (m & A1 & A2 & _)]; exists m; (split; [exact A1|congruence]). }
        destruct Q as (m & Qm & Nm). pose proof (le_st _ _ _ Le i) as (l & Pl).
        assert (Qm' : nth_error (ws (sl M' i)) (last_ts (ws (sl (w_mem c) i))) = Some m) by (rewrite Pl, nth_error_app1; [exact Qm|apply nth_error_Some; congruence]).
        pose proof (wi_slot _ _ _ _ W' i) as Sl. destruct Hg as [Hg|Hg]; rewrite Hg in Sl; simpl in Sl; [|destruct Sl as [w Sl]]; rewrite Sl in Qm'; simpl in Qm';
          destruct (last_ts (ws (sl (w_mem c) i))) as [|[|k2]]; try discriminate; injection Qm' as <-; now apply Nm. }
      destruct (g i) as [|j|j| | |j] eqn:Hgi.
      + now apply Fre.
      + apply Old. left. f_equal. now apply Oth; left.
      + apply Old. right. f_equal. now apply Oth; right.
      + exfalso. pose proof (proj2 Gu (Datatypes.S (wc_id x)) ltac:(lia)) as (_ & _ & _ & _ & _ & _ & _ & _ & G9). apply G9 in Hgi. destruct Hg; congruence.
      + destruct Ps; auto.
      + destruct Ps; eauto.
  Qed.

  Lemma run_busy (r : list (nat * wcall V)) id : NoDup (map fst r) -> busy r id \/ ~ busy r id.
  Proof.
    intros Nd. destruct (existsb (fun q => wc_id (snd q) =? id) r) eqn:Q.
    - left. apply existsb_exists in Q as ([t x] & Hin & Hid). apply Nat.eqb_eq in Hid. exists t, x. split; [|exact Hid].
      clear - Hin Nd. induction r as [|[u y] r IH]; [destruct Hin|]. simpl in *. inversion Nd; subst.
      destruct Hin as [[= -> ->]|Hin]; [now rewrite Nat.eqb_refl|]. destruct (Nat.eqb_spec t u) as [->|]; [|auto]. exfalso. apply H1. apply (in_map fst) in Hin. exact Hin.
    - right. intros (t & x & Lk & Hid). assert (Hx : In (t, x) r).
      { clear - Lk. induction r as [|[u y] r IH]; [discriminate|]. simpl in *. destruct (Nat.eqb_spec t u) as [->|]; [injection Lk as ->; now left|right; auto]. }
      assert (Q' : existsb (fun q => wc_id (snd q) =? id) r = true) by (apply existsb_exists; exists (t, x); split; [exact Hx|now apply Nat.eqb_eq]). congruence.
  Qed.
  Lemma idle_lock c g i id : SI c g -> g i = GLock id -> busy (w_run c) id.
  Proof.
    intros S Hg. destruct (run_busy (w_run c) id (ni_nd _ (si_ni _ _ _ _ S))) as [|Nb]; [assumption|exfalso].
    destruct (si_idle _ _ _ _ S id Nb) as (fl & Vw & _). apply (vw_lock _ _ _ _ _ _ Vw) in Hg. destruct Hg.
  Qed.
  Lemma idle_own c g i id : SI c g -> g i = GOwn id \/ g i = GWr id -> busy (w_run c) id.
  Proof.
    intros S Hg. destruct (run_busy (w_run c) id (ni_nd _ (si_ni _ _ _ _ S))) as [|Nb]; [assumption|exfalso].
    destruct (si_idle _ _ _ _ S id Nb) as (fl & Vw & _). destruct Hg as [Hg|Hg]; [apply (vw_own _ _ _ _ _ _ Vw) in Hg; simpl in Hg; lia|apply (vw_wr _ _ _ _ _ _ Vw) in Hg; discriminate].
  Qed.

  (** a call ends *)
  Lemma end_world c g f t x k c' : world c g f -> wlookup t (w_run c) = Some x -> match wc_prog x with Ret _ | Pan _ => True | _ => False end ->
    wstep E c (WStep t k) = WNext c' -> exists g', world c' g' f /\ guar ro (wc_id x) (w_mem c) g (w_mem c') g' /\ w_run c' = wremove t (w_run c).
  Proof.
    intros (S & B & Hi) Lk Hp St. pose proof (si_ni _ _ _ _ S) as N. pose proof (NI_step E _ _ _ N St) as N'.
    pose proof (BI_step E ro c g (WStep t k) _ S B I St) as B'. destruct (si_run _ _ _ _ S t x Lk) as (F1 & F2 & L & Vw & Wp). pose proof (h_calm _ _ _ Hi t x Lk) as Cx.
    assert (K : exists g', SI c' g' /\ guar ro (wc_id x) (w_mem c) g (w_mem c') g' /\ w_run c' = wremove t (w_run c) /\ w_mem c' = w_mem c /\ w_view c' = w_view c /\ fst (f t) = []).
    { simpl in St. unfold wstep_thread in St. rewrite Lk in St. destruct (wc_prog x) as [r|m|a kk|a again kk] eqn:Hx; try contradiction; simpl in Wp; injection St as <-.
      - destruct Wp as [Cl Op]. destruct (SI_end' E ro c g t x L (w_res c ++ [WRes (wc_id x) (wc_op x) (wc_from x) r (w_view c t)]) (w_panics c)) as (g' & A & G); eauto using clean_any; [|apply S|].
        + intros q Hq. apply in_app_or in Hq as [Hq|[<-|[]]]; [now apply S|]. split; [assumption|]. split; [apply S|]. split; assumption.
        + exists g'. repeat (split; [first [exact A|exact G|reflexivity]|]). exact Cx.
      - pose proof (pan_now E ro x m _ _ _ (ex_intro _ g (si_wi _ _ _ _ S)) Wp) as Px. destruct Wp as [[Nb Cl] _]. destruct (SI_end' E ro c g t x L (w_res c) (w_panics c ++ [(wc_id x, wc_op x, m)])) as (g' & A & G); eauto using clean_any; [apply S| |].
        + intros id o m' Hq. apply in_app_or in Hq as [Hq|[Hq|[]]]; [apply (si_pan _ _ _ _ S _ _ _ Hq)|]. now injection Hq as <- <- <-.
        + exists g'. repeat (split; [first [exact A|exact G|reflexivity]|]). exact Cx. }
    destruct K as (g' & S' & Gu & Hr & Hm & Hv & H0). exists g'. split; [|split; [exact Gu|exact Hr]]. split; [exact S'|]. split; [exact B'|].
    assert (Lx : forall u z, wlookup u (w_run c') = Some z -> u <> t /\ wlookup u (w_run c) = Some z).
    { intros u z. rewrite Hr. apply rem_look. apply N. }
    constructor.
    - intros u z H. apply Lx in H as [_ H]. now apply (h_calm _ _ _ Hi).
    - intros u z i H. apply Lx in H as [_ H]. now apply (h_touch _ _ _ Hi).
    - intros u z H. apply Lx in H as [_ H]. rewrite Hm, Hv. now apply (h_len _ _ _ Hi u z).
    - intros i id Hg. destruct (idle_lock _ _ _ _ S' Hg) as (u & z & Lu & Hid). destruct (Lx _ _ Lu) as [Ne Lu'].
      assert (Nid : id <> wc_id x) by (intros e; apply Ne; apply (ni_ids _ N u t z x); congruence).
      exists u, z. split; [exact Lu|]. split; [exact Hid|]. apply (proj2 Gu id Nid) in Hg. destruct (h_lock _ _ _ Hi i id Hg) as (w & y & Lw & Hw & Hin).
      rewrite <- (ni_ids _ N w u y z Lw Lu'); [exact Hin|congruence].
    - intros u z H. apply Lx in H as [_ H]. rewrite Hm. now apply (h_base _ _ _ Hi u).
    - intros i id Hg. rewrite Hm. destruct (idle_own _ _ _ _ S' Hg) as (u & z & Lu & Hid). destruct (Lx _ _ Lu) as [Ne Lu'].
      assert (Nid : id <> wc_id x) by (intros e; apply Ne; apply (ni_ids _ N u t z x); congruence).
      apply (h_own _ _ _ Hi). destruct (proj2 Gu id Nid) as (G1 & G2 & _). rewrite <- G1, <- G2. exact Hg.
  Qed.

  Lemma same_refl id M g : same_for ro id M g M g.
  Proof. unfold same_for. intuition. Qed.

  Lemma seen_join c t u n : vok (w_mem c) (vjoin (w_view c t) u) -> (exists g, WI (w_mem c) g) -> seen_wrtn (w_mem c) (w_view c t) n -> seen_wrtn (w_mem c) (vjoin (w_view c t) u) n.
  Proof. intros O G Hs. eapply (seen_wrtn_up E ro); eauto using mle_refl. apply vle_joinl. Qed.

  (** every step of a client *)
  Lemma step_world c g f l c' : world c g f -> wclient E ro c l -> wstep E c l = WNext c' ->
    exists g' f', world c' g' f' /\
      forall u y, wlookup u (w_run c) = Some y ->
        mle ro (w_mem c) (w_mem c') /\ (forall i, g i = GLost -> g' i = GLost) /\
        ((forall k, l <> WStep u k) -> wlookup u (w_run c') = Some y /\ same_for ro (wc_id y) (w_mem c) g (w_mem c') g').
  Proof.
    intros Wo Cl St. pose proof Wo as (S & B & Hi). pose proof (si_ni _ _ _ _ S) as N. pose proof (BI_step E ro c g l _ S B Cl St) as B'.
    destruct l as [t o from|t k|t w| |n].
    - pose proof (SI_inv E ro EOK c g t o from c' S (proj1 Cl) St) as S'. simpl in St. destruct (wlookup t (w_run c)) eqn:Lk; [discriminate|]. destruct (fetch o from (w_res c)) as [v|] eqn:Fe; [|discriminate].
      injection St as <-. exists g, (put f t ([], 0)). split.
      + split; [exact S'|]. split; [exact B'|].
        assert (Lx : forall u z, wlookup u ((t, WCall (w_next c) o (vjoin (w_view c t) v) (op_prog E o)) :: w_run c) = Some z ->
                       (u = t /\ z = WCall (w_next c) o (vjoin (w_view c t) v) (op_prog E o)) \/ (u <> t /\ wlookup u (w_run c) = Some z)).
        { intros u z. simpl. destruct (Nat.eqb_spec u t) as [->|]; [intros [= <-]; now left|auto]. }
        constructor; cbn [w_run w_mem w_view]; unfold put, upd.
        * intros u z H. apply Lx in H as [[-> ->]|[Ne H]]; [rewrite Nat.eqb_refl; simpl; apply op_quiet; apply (proj1 Cl)|]. destruct (Nat.eqb_spec u t); [congruence|]. now apply (h_calm _ _ _ Hi).
        * intros u z i H. apply Lx in H as [[-> ->]|[Ne H]]; [rewrite Nat.eqb_refl; intros []|]. destruct (Nat.eqb_spec u t); [congruence|]. now apply (h_touch _ _ _ Hi).
        * intros u z H. apply Lx in H as [[-> ->]|[Ne H]].
          -- rewrite Nat.eqb_refl. pose proof (si_view _ _ _ _ S' t) as (_ & O & _). simpl in O. unfold upd in O. rewrite Nat.eqb_refl in O.
             unfold seen_wrtn. simpl snd. destruct (nth_error (m_wrtn (w_mem c)) (v_wrtn (vjoin (w_view c t) v))) as [m|] eqn:Q; [exists m; split; [reflexivity|lia]|apply nth_error_None in Q; simpl in *; lia].
          -- destruct (Nat.eqb_spec u t); [congruence|]. now apply (h_len _ _ _ Hi u z).
        * intros i id Hg. destruct (h_lock _ _ _ Hi i id Hg) as (u & z & Lu & Hid & Hin). assert (u <> t) by congruence. exists u, z. simpl. destruct (Nat.eqb_spec u t); [congruence|]. auto.
        * intros u z H. apply Lx in H as [[-> ->]|[Ne H]]; [|now apply (h_base _ _ _ Hi u)]. unfold wbase. simpl. destruct (grows o) eqn:Gr; [left; auto|]. right. right. split; [reflexivity|]. now apply op_loops.
        * exact (h_own _ _ _ Hi).
      + intros u y Lu. split; [apply mle_refl|]. split; [auto|]. intros _. split; [|apply same_refl]. simpl. destruct (Nat.eqb_spec u t); [congruence|assumption].
    - pose proof St as St0. simpl in St. unfold wstep_thread in St. destruct (wlookup t (w_run c)) as [x|] eqn:Lk; [|discriminate].
      assert (Fin : forall g' f', world c' g' f' -> guar ro (wc_id x) (w_mem c) g (w_mem c') g' -> (forall u, u <> t -> wlookup u (w_run c') = wlookup u (w_run c)) ->
          exists g' f', world c' g' f' /\ forall u y, wlookup u (w_run c) = Some y -> mle ro (w_mem c) (w_mem c') /\ (forall i, g i = GLost -> g' i = GLost) /\
            ((forall k', @WStep V t k <> WStep u k') -> wlookup u (w_run c') = Some y /\ same_for ro (wc_id y) (w_mem c) g (w_mem c') g')).
      { intros g' f' Wo' Gu Lo. exists g', f'. split; [exact Wo'|]. intros u y Lu. split; [apply Gu|]. split; [apply (proj2 Gu (Datatypes.S (wc_id x))); lia|].
        intros Ne. assert (Nt : u <> t) by (intros ->; now apply (Ne k)). rewrite Lo by assumption. split; [assumption|]. apply (proj2 Gu). intros e. apply Nt. apply (ni_ids _ N u t y x Lu Lk e). }
      destruct (wc_prog x) as [r|m|a kk|a again kk] eqn:Hp.
      + destruct (end_world c g f t x k c' Wo Lk ltac:(now rewrite Hp) St0) as (g' & Wo' & Gu & Hr). apply (Fin g' f); auto. intros u Ne. rewrite Hr. now apply wlook_other.
      + destruct (end_world c g f t x k c' Wo Lk ltac:(now rewrite Hp) St0) as (g' & Wo' & Gu & Hr). apply (Fin g' f); auto. intros u Ne. rewrite Hr. now apply wlook_other.
      + destruct (wexec E (wc_id x) a k (w_mem c) (w_view c t)) as [y M' tv'| |] eqn:Ex; try discriminate. injection St as <-.
        destruct (access_world c g f t x a k y M' tv' kk Wo Lk (or_introl Hp) Ex) as (g' & f' & Wo' & Gu). apply (Fin g' f'); auto.
        intros u Ne. simpl. destruct (Nat.eqb_spec u t); [congruence|]. now apply wlook_other.
      + destruct (wexec E (wc_id x) a k (w_mem c) (w_view c t)) as [y M' tv'| |] eqn:Ex; try discriminate. destruct (again y) eqn:Ag; injection St as <-.
        * apply (Fin g f); auto. split; [apply mle_refl|]. intros. apply same_refl.
        * destruct (access_world c g f t x a k y M' tv' kk Wo Lk (or_intror (ex_intro _ again (conj Hp Ag))) Ex) as (g' & f' & Wo' & Gu). apply (Fin g' f'); auto.
          intros u Ne. simpl. destruct (Nat.eqb_spec u t); [congruence|]. now apply wlook_other.
    - pose proof (SI_sync E ro c g t w c' S St) as S'. simpl in St. injection St as <-. exists g, f. split.
      + split; [exact S'|]. split; [exact B'|]. constructor; cbn [w_run w_mem w_view]; try apply Hi.
        intros u z H. unfold upd. destruct (Nat.eqb_spec u t) as [->|]; [|now apply (h_len _ _ _ Hi u z)].
        apply seen_join; [apply vok_join; apply S|exists g; apply S|now apply (h_len _ _ _ Hi t z)].
      + intros u y Lu. split; [apply mle_refl|]. split; [auto|]. intros _. split; [assumption|apply same_refl].
    - destruct (SI_clear E ro c g c' S St) as (g' & S'). simpl in St. destruct (w_run c) eqn:R; [|discriminate]. exists g', f. split; [|intros u y Lu; discriminate].
      assert (R' : w_run c' = []) by (destruct (latest _ <=? latest _); [injection St as <-; reflexivity|discriminate]).
      split; [exact S'|]. split; [exact B'|]. constructor; try (intros u z; rewrite R'; discriminate); intros i id Hg; first [destruct (idle_lock _ _ _ _ S' Hg) as (u & z & Lu & _)|destruct (idle_own _ _ _ _ S' Hg) as (u & z & Lu & _)]; rewrite R' in Lu; discriminate.
    - pose proof (SI_reserve E ro EOK c g n c' S St) as S'. simpl in St. destruct (w_run c) eqn:R; [|discriminate]. exists g, f. split; [|intros u y Lu; discriminate].
      assert (R' : w_run c' = []) by (destruct (reserve E _ _ n); injection St as <-; [reflexivity|exact R]).
      split; [exact S'|]. split; [exact B'|]. constructor; try (intros u z; rewrite R'; discriminate); intros i id Hg; first [destruct (idle_lock _ _ _ _ S' Hg) as (u & z & Lu & _)|destruct (idle_own _ _ _ _ S' Hg) as (u & z & Lu & _)]; rewrite R' in Lu; discriminate.
  Qed.
End WLocks.

Section Exec.
  Context {V : Type} (E : env V) (ro : bool).
  Lemma execution_world l0 c0 m0 c : wexecution E ro l0 c0 m0 c -> env_ok E /\ exists g f, world E ro c g f.
  Proof.
    intros (EOK & Ck & Hl & Hw & Re). split; [assumption|]. induction Re as [|c l c' Re IH Cl St].
    - assert (S : SI E ro (wstart l0 c0 m0) (g0 (length l0))) by (apply init_SI; auto). exists (g0 (length l0)), (fun _ => ([], 0)). split; [exact S|]. split; [now apply BI_init|].
      constructor; try (intros; discriminate); intros i id Hg; first [destruct (idle_lock E ro _ _ _ _ S Hg) as (u & z & Lu & _)|destruct (idle_own E ro _ _ _ _ S Hg) as (u & z & Lu & _)]; discriminate.
    - destruct IH as (g & f & W). destruct (step_world E ro EOK c g f l c' W Cl St) as (g' & f' & W' & _). eauto.
  Qed.
End Exec.
