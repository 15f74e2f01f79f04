(** * Executions of the view machine keep the invariant. *)

From Coq Require Import List Arith Bool Lia.
From Verif.Model Require Import Prog Mem Deps State Elem Vec Excl Machine.
From Verif Require Import Client.
From Verif.Logic Require Import Shape.
From Verif.RA Require Import Weak WInv WStep WSlots WSpecs WOps.
Import ListNotations.
Local Arguments Nat.leb : simpl never.
Local Arguments Nat.ltb : simpl never.
Local Arguments Nat.eqb : simpl never.
Local Arguments Nat.add : simpl never.
Local Arguments Nat.sub : simpl never.
Local Arguments Nat.max : simpl never.

Section WSound.
  Context {V : Type} (E : env V) (ro : bool) (EOK : env_ok E).
  Notation wmem := (wmem V).
  Notation WI := (WI E ro).
  Notation good := (good E ro).
  Notation mle := (mle ro).
  Notation wview := (wview ro).
  Notation guar := (guar ro).
  Implicit Types (M : wmem) (g : nat -> wgst) (tv : view) (L : toks) (c : wcfg V) (x : wcall V).

  (** ** Lists of running calls *)
  Lemma wlook_same t (r : list (nat * wcall V)) : NoDup (map fst r) -> wlookup t (wremove t r) = None.
  Proof.
    induction r as [|[u x] r IH]; simpl; auto. intros N. inversion N as [|? ? N1 N2]; subst. destruct (Nat.eqb_spec t u) as [->|].
    - clear IH. induction r as [|[w y] r IH]; simpl in *; auto. destruct (Nat.eqb_spec u w) as [->|]; [exfalso; auto|]. apply IH; [now inversion N; subst; constructor; [intros ?; apply N1; right|inversion N2]|auto|now inversion N2].
    - simpl. destruct (Nat.eqb_spec t u); [congruence|auto].
  Qed.
  Lemma wlook_other t u (r : list (nat * wcall V)) : u <> t -> wlookup u (wremove t r) = wlookup u r.
  Proof.
    intros D. induction r as [|[w x] r IH]; simpl; auto. destruct (Nat.eqb_spec t w) as [->|].
    - destruct (Nat.eqb_spec u w); [congruence|reflexivity].
    - simpl. destruct (u =? w); auto.
  Qed.
  Lemma wrem_in t (r : list (nat * wcall V)) u : In u (map fst (wremove t r)) -> In u (map fst r).
  Proof. induction r as [|[w x] r IH]; simpl; auto. destruct (t =? w); simpl; tauto. Qed.
  Lemma wrem_nd t (r : list (nat * wcall V)) : NoDup (map fst r) -> NoDup (map fst (wremove t r)).
  Proof.
    induction r as [|[w x] r IH]; simpl; auto. intros N. inversion N; subst. destruct (t =? w); auto. simpl. constructor; auto. intros H. apply wrem_in in H. contradiction.
  Qed.
  Lemma wlook_none t (r : list (nat * wcall V)) : wlookup t r = None -> ~ In t (map fst r).
  Proof. induction r as [|[w x] r IH]; simpl; auto. destruct (Nat.eqb_spec t w); [discriminate|]. intros H [X|X]; [congruence|auto]. now apply IH. Qed.
  Lemma wnone_look t (r : list (nat * wcall V)) : ~ In t (map fst r) -> wlookup t r = None.
  Proof. induction r as [|[w x] r IH]; simpl; auto. intros H. destruct (Nat.eqb_spec t w); [exfalso; auto|auto]. Qed.
  Lemma wrem_notin t (r : list (nat * wcall V)) : NoDup (map fst r) -> ~ In t (map fst (wremove t r)).
  Proof. intros N. apply wlook_none. now apply wlook_same. Qed.

  (** ** The call in progress *)
  Notation wpx x := (wp E ro (wc_id x) (post ro (wc_id x) (wc_from x) (wc_op x)) (ppost (wc_id x) (grows (wc_op x)) (wc_op x))).
  Definition runs_ok M g tv x : Prop :=
    vok M (wc_from x) /\ vle (wc_from x) tv /\ exists L, wview M g (wc_id x) tv L /\ wpx x (wc_prog x) L M tv.

  Lemma wp_up id from o lossy p L M tv M' tv' : up E ro M tv M' tv' -> vok M from -> good M ->
    wp E ro id (post ro id from o) (ppost id lossy o) p L M tv -> wp E ro id (post ro id from o) (ppost id lossy o) p L M' tv'.
  Proof.
    intros U O G. destruct p as [r|m|a k|a again k]; simpl; auto.
    - intros [A B]. split; [assumption|]. eapply opost_up; eauto.
    - intros [A B]. split; [assumption|]. intros Gr. destruct (B Gr) as [H|(b & H1 & H2)]; [now left|]. right. exists b. split; [eapply block_le; [|eassumption]; apply U|].
      intros H. pose proof (up_cap _ _ _ _ _ _ U). specialize (H2 H). lia.
    - intros S M1 tv1 A B C D. apply S; auto; [eapply mle_trans; [apply U|assumption]|eapply vle_trans; [apply U|assumption]].
    - intros S M1 tv1 A B C D. apply S; auto; [eapply mle_trans; [apply U|assumption]|eapply vle_trans; [apply U|assumption]].
  Qed.
  Lemma runs_stable id M g M' g' tv x : wc_id x <> id -> WI M g -> WI M' g' -> guar id M g M' g' -> runs_ok M g tv x -> runs_ok M' g' tv x.
  Proof.
    intros Ne W W' Gu (A & B & L & C & D). pose proof (proj1 Gu) as Le. split; [eapply vok_le; eauto|]. split; [assumption|]. exists L. split; [eapply wview_stable; eauto|].
    pose proof (vw_ok _ _ _ _ _ _ C) as O. eapply wp_up; eauto; [|now exists g]. apply mk_up; auto using vle_refl; [now exists g'|eapply vok_le; eauto].
  Qed.

  (** ** What holds in every configuration *)
  Definition busy (r : list (nat * wcall V)) (id : nat) : Prop := exists t x, wlookup t r = Some x /\ wc_id x = id.
  Definition tokF f := Tok 0 0 None [] f false false.
  Definition res_ok M (x : wresult V) : Prop :=
    vok M (r_from x) /\ vok M (r_to x) /\ vle (r_from x) (r_to x) /\ opost ro (r_id x) (r_from x) (r_op x) (r_ret x) M (r_to x).

  (** what is known about a call that panicked *)
  Definition pan_ok M (id : nat) (o : op V) (m : panic) : Prop :=
    ~ badp m /\ (grows o = true -> overran o m \/ exists b, block id M b (request o) /\ (0 < request o -> b + request o <= latest (m_cap M))).
  Lemma latest_mono M M' : mle M M' -> good M -> good M' -> latest (m_cap M) <= latest (m_cap M').
  Proof.
    intros Le [g W] G'. destruct (wi_ne _ _ _ _ W) as (_ & _ & Nc). set (tv := set_cap (last_ts (m_cap M)) vbot).
    assert (Q : nth_error (m_cap M) (last_ts (m_cap M)) <> None) by (apply nth_error_Some; unfold last_ts; destruct (m_cap M); [congruence|simpl; lia]).
    destruct (nth_error (m_cap M) (last_ts (m_cap M))) as [m|] eqn:Qm; [|congruence].
    assert (A : latest (m_cap M) = capv M' tv) by (unfold latest, capv; simpl; rewrite Qm; now rewrite (prefix_nth _ _ _ _ (le_cap _ _ _ Le) Qm)).
    rewrite A. now apply (latest_bound E ro).
  Qed.
  Lemma pan_le M M' id o m : mle M M' -> good M -> good M' -> pan_ok M id o m -> pan_ok M' id o m.
  Proof.
    intros Le G G' [A B]. split; [assumption|]. intros Gr. destruct (B Gr) as [H|(b & H1 & H2)]; [now left|]. right. exists b. split; [eapply block_le; eauto|].
    intros H. pose proof (latest_mono M M' Le G G'). specialize (H2 H). lia.
  Qed.
  Lemma pan_now x m L M tv : good M -> ppost (wc_id x) (grows (wc_op x)) (wc_op x) m L M tv -> pan_ok M (wc_id x) (wc_op x) m.
  Proof.
    intros G [[A _] B]. split; [assumption|]. intros Gr. destruct (B Gr) as [H|(b & H1 & H2)]; [now left|]. right. exists b. split; [assumption|].
    intros H. pose proof (latest_bound E ro M tv G). specialize (H2 H). lia.
  Qed.
  (** the numbers of the calls *)
  Record NI c : Prop := MkNI {
    ni_res : NoDup (map r_id (w_res c));
    ni_res_lt : forall q, In q (w_res c) -> r_id q < w_next c /\ ~ busy (w_run c) (r_id q);
    ni_pan_lt : forall id o m, In (id, o, m) (w_panics c) -> id < w_next c /\ ~ busy (w_run c) id;
    ni_nd : NoDup (map fst (w_run c));
    ni_ids : forall t u x y, wlookup t (w_run c) = Some x -> wlookup u (w_run c) = Some y -> wc_id x = wc_id y -> t = u;
    ni_lt : forall id, busy (w_run c) id -> id < w_next c;
    ni_next : 0 < w_next c
  }.
  Record SI c g : Prop := MkSI {
    si_wi : WI (w_mem c) g;
    si_run : forall t x, wlookup t (w_run c) = Some x -> runs_ok (w_mem c) g (w_view c t) x;
    si_ni : NI c;
    si_idle : forall id, ~ busy (w_run c) id -> exists f, wview (w_mem c) g id vbot (tokF f) /\ (w_next c <= id -> f = true);
    si_view : forall t, vok (w_mem c) (w_view c t);
    si_res : forall q, In q (w_res c) -> res_ok (w_mem c) q;
    si_pan : forall id o m, In (id, o, m) (w_panics c) -> pan_ok (w_mem c) id o m
  }.

  Lemma busy_rem r t x id : NoDup (map fst r) -> wlookup t r = Some x -> busy (wremove t r) id -> busy r id /\ (exists u y, u <> t /\ wlookup u r = Some y /\ wc_id y = id).
  Proof.
    intros N Lk (u & y & A & B). assert (u <> t) by (intros ->; rewrite wlook_same in A by assumption; discriminate).
    rewrite wlook_other in A by assumption. split; [exists u, y; auto|exists u, y; auto].
  Qed.
  Lemma rem_look r t u x : NoDup (map fst r) -> wlookup u (wremove t r) = Some x -> u <> t /\ wlookup u r = Some x.
  Proof.
    intros N H. assert (u <> t) by (intros ->; rewrite wlook_same in H by assumption; discriminate). rewrite wlook_other in H by assumption. auto.
  Qed.
  Lemma put_look r t u x y : NoDup (map fst r) -> wlookup u ((t, x) :: wremove t r) = Some y -> (u = t /\ y = x) \/ (u <> t /\ wlookup u r = Some y).
  Proof.
    intros N. simpl. destruct (Nat.eqb_spec u t) as [->|Ne]; [intros [= <-]; auto|]. intros H. right. apply (rem_look r t u y N H).
  Qed.
  Lemma busy_put r t x y id : NoDup (map fst r) -> wlookup t r = Some x -> wc_id y = wc_id x -> (busy ((t, y) :: wremove t r) id <-> busy r id).
  Proof.
    intros N Lk Hid. split; intros (u & z & A & B).
    - apply put_look in A as [[-> ->]|[Ne A]]; auto; [exists t, x; split; [assumption|congruence]|exists u, z; auto].
    - destruct (Nat.eq_dec u t) as [->|Ne]; [exists t, y; simpl; rewrite Nat.eqb_refl; split; [reflexivity|congruence]|].
      exists u, z. simpl. destruct (Nat.eqb_spec u t); [congruence|]. rewrite wlook_other by assumption. auto.
  Qed.

  Lemma nodup_snoc {A} (l : list A) a : NoDup l -> ~ In a l -> NoDup (l ++ [a]).
  Proof.
    intros N H. induction l as [|b l IH]; simpl in *; [constructor; auto; constructor|]. inversion N; subst. constructor; [|apply IH; auto].
    intros X. apply in_app_or in X as [X|[X|[]]]; auto.
  Qed.

  Lemma NI_step c l c' : NI c -> wstep E c l = WNext c' -> NI c'.
  Proof.
    intros N S. destruct l as [t o from|t k|t u| |n]; simpl in S.
    - destruct (wlookup t (w_run c)) eqn:Lk; [discriminate|]. destruct (fetch o from (w_res c)) as [v|]; [|discriminate]. injection S as <-.
      assert (Bu : forall id, busy ((t, WCall (w_next c) o (vjoin (w_view c t) v) (op_prog E o)) :: w_run c) id -> id = w_next c \/ busy (w_run c) id).
      { intros id (u & x & A & B). simpl in A. destruct (Nat.eqb_spec u t); [injection A as <-; auto|right; now exists u, x]. }
      constructor; simpl.
      + apply N.
      + intros q Hq. destruct (ni_res_lt _ N q Hq) as [A B]. split; [lia|]. intros X. apply Bu in X as [X|X]; [lia|auto].
      + intros id o' m Hq. destruct (ni_pan_lt _ N _ _ _ Hq) as [A B]. split; [lia|]. intros X. apply Bu in X as [X|X]; [lia|auto].
      + constructor; [now apply wlook_none|apply N].
      + intros a b x y. destruct (Nat.eqb_spec a t) as [->|], (Nat.eqb_spec b t) as [->|]; auto.
        * intros [= <-] Hy e. simpl in e. pose proof (ni_lt _ N (wc_id y) (ex_intro _ b (ex_intro _ y (conj Hy eq_refl)))). lia.
        * intros Hx [= <-] e. simpl in e. pose proof (ni_lt _ N (wc_id x) (ex_intro _ a (ex_intro _ x (conj Hx eq_refl)))). lia.
        * apply N.
      + intros id X. apply Bu in X as [->|X]; [lia|]. pose proof (ni_lt _ N _ X). lia.
      + lia.
    - unfold wstep_thread in S. destruct (wlookup t (w_run c)) as [x|] eqn:Lk; [|discriminate].
      assert (Bx : busy (w_run c) (wc_id x)) by (exists t, x; auto).
      assert (Af : forall p M tv, NI (wafter t c x p M tv)).
      { intros p M tv. constructor; simpl; try exact (ni_next _ N); try apply N.
        - intros q Hq. destruct (ni_res_lt _ N q Hq) as [A B]. split; [assumption|]. rewrite busy_put by (try apply N; eauto). assumption.
        - intros id o m Hq. destruct (ni_pan_lt _ N _ _ _ Hq) as [A B]. split; [assumption|]. rewrite busy_put by (try apply N; eauto). assumption.
        - constructor; [apply wrem_notin, N|apply wrem_nd, N].
        - intros a b y z Hy Hz e. apply put_look in Hy as [[-> ->]|[Na Hy]]; [| |apply N]; apply put_look in Hz as [[-> ->]|[Nb Hz]]; try apply N; auto.
          + apply (ni_ids _ N t b x z Lk Hz e).
          + apply (ni_ids _ N a t y x Hy Lk e).
          + apply (ni_ids _ N a b y z Hy Hz e).
        - intros id. rewrite busy_put by (try apply N; eauto). apply N. }
      assert (Rm : forall id, busy (wremove t (w_run c)) id -> busy (w_run c) id /\ id <> wc_id x).
      { intros id X. destruct (busy_rem _ _ _ _ (ni_nd _ N) Lk X) as (A & u & y & B & C & D). split; [assumption|]. intros ->. apply B. apply (ni_ids _ N u t y x C Lk D). }
      destruct (wc_prog x) as [r|m|a kk|a again kk].
      + injection S as <-. constructor; simpl; try exact (ni_next _ N); try apply N.
        * rewrite map_app. apply nodup_snoc; [apply N|]. simpl. intros X. apply in_map_iff in X as (q & A & B). apply (ni_res_lt _ N q B). now rewrite A.
        * intros q Hq. apply in_app_or in Hq as [Hq|[<-|[]]].
          -- destruct (ni_res_lt _ N q Hq) as [A B]. split; [assumption|]. intros X. apply Rm in X. tauto.
          -- simpl. split; [now apply N|]. intros X. apply Rm in X. tauto.
        * intros id o m Hq. destruct (ni_pan_lt _ N _ _ _ Hq) as [A B]. split; [assumption|]. intros X. apply Rm in X. tauto.
        * apply wrem_nd, N.
        * intros a b y z Hy Hz e. apply rem_look in Hy as [_ Hy]; [|apply N]. apply rem_look in Hz as [_ Hz]; [|apply N]. apply (ni_ids _ N a b y z Hy Hz e).
        * intros id X. apply Rm in X. now apply N.
      + injection S as <-. constructor; simpl; try exact (ni_next _ N); try apply N.
        * intros q Hq. destruct (ni_res_lt _ N q Hq) as [A B]. split; [assumption|]. intros X. apply Rm in X. tauto.
        * intros id o m' Hq. apply in_app_or in Hq as [Hq|[Hq|[]]].
          -- destruct (ni_pan_lt _ N _ _ _ Hq) as [A B]. split; [assumption|]. intros X. apply Rm in X. tauto.
          -- injection Hq as <- <- <-. split; [now apply N|]. intros X. apply Rm in X. tauto.
        * apply wrem_nd, N.
        * intros a b y z Hy Hz e. apply rem_look in Hy as [_ Hy]; [|apply N]. apply rem_look in Hz as [_ Hz]; [|apply N]. apply (ni_ids _ N a b y z Hy Hz e).
        * intros id X. apply Rm in X. now apply N.
      + destruct (wexec E (wc_id x) a k (w_mem c) (w_view c t)); try discriminate. injection S as <-. apply Af.
      + destruct (wexec E (wc_id x) a k (w_mem c) (w_view c t)); try discriminate. destruct (again x0); injection S as <-; [assumption|apply Af].
    - injection S as <-. destruct N as [N1 N2 N3 N4 N5 N6 N7]. constructor; assumption.
    - destruct (w_run c); [|discriminate]. destruct (latest _ <=? latest _); [|discriminate]. injection S as <-. constructor; simpl; try constructor; try discriminate; try contradiction; [|apply (ni_next _ N)].
      intros id (t & x & A & B). discriminate.
    - destruct (w_run c) eqn:R; [|discriminate]. destruct (reserve E _ _ n); injection S as <-; [|assumption].
      destruct N as [N1 N2 N3 N4 N5 N6 N7]. rewrite R in *. constructor; simpl; auto.
  Qed.

  (** ** Start *)
  Lemma vok_bot M tv : vok M tv -> vok M vbot.
  Proof.
    intros (A & B & C & D & F). split; [simpl; lia|]. split; [simpl; lia|]. split; [simpl; lia|]. split; intros i; simpl; [specialize (D i)|]; lia.
  Qed.
  Definition g0 (n i : nat) : wgst := if i <? n then GHas else GFree.
  Lemma init_slot (l : list V) cp mx i :
    (i < length l /\ exists v, sl (winit l cp mx) i = wfilled v /\ g0 (length l) i = GHas) \/ (length l <= i /\ sl (winit l cp mx) i = wfresh /\ g0 (length l) i = GFree).
  Proof.
    unfold sl, winit, g0. simpl. destruct (nth_error l i) as [v|] eqn:Q.
    - assert (i < length l) by (apply nth_error_Some; congruence). left. destruct (Nat.ltb_spec i (length l)); [|lia]. split; [assumption|]. now exists v.
    - apply nth_error_None in Q. right. destruct (Nat.ltb_spec i (length l)); [lia|]. auto.
  Qed.
  Lemma init_vok (l : list V) cp mx : vok (winit l cp mx) vbot.
  Proof.
    split; [simpl; lia|]. split; [simpl; lia|]. split; [simpl; lia|]. split; intros i; [|simpl; lia].
    destruct (init_slot l cp mx i) as [(A & v & -> & _)|(A & -> & _)]; simpl; lia.
  Qed.
  Lemma init_WI (l : list V) cp mx : capok E cp mx -> length l <= cp -> WI (winit l cp mx) (g0 (length l)).
  Proof.
    intros Ck Hl. pose proof (init_vok l cp mx) as O. set (M := winit l cp mx) in *.
    assert (One : forall (m m' : msg nat) k, nth_error [m] k = Some m' -> k = 0 /\ m' = m) by (intros m m' [|[|k]] H; try discriminate; injection H as <-; auto).
    constructor; simpl.
    - intros j k m m' _ Hj Hk. apply One in Hj as [_ ->]. apply One in Hk as [_ ->]. lia.
    - intros m [<-|[]]. exact O.
    - intros m [<-|[]]. split; [exact O|]. split; [exact Hl|]. split; [now exists (Msg (length l) vbot true 0)|]. simpl. intros i Hi.
      destruct (init_slot l cp mx i) as [(A & v & Q & _)|(A & _)]; [|lia]. unfold seen_some. fold M in Q. rewrite Q. simpl. exists (Msg SOME vbot false 0). split; [reflexivity|discriminate].
    - intros m [<-|[]]. exact O.
    - exact Ck.
    - intros j k m m' Hjk Hj Hk. apply One in Hj as [-> _]. apply One in Hk as [-> _]. lia.
    - intros k m m' _ Hk. destruct k; discriminate.
    - intros i. change (latest (m_resv M)) with (length l). destruct (init_slot l cp mx i) as [(A & v & _ & ->)|(A & _ & ->)]; split; try discriminate; auto; intros X; unfold latest in X; simpl in X; exfalso; lia.
    - intros i. destruct (init_slot l cp mx i) as [(A & v & Q & ->)|(A & Q & ->)]; fold M in Q; [|exact Q]. simpl.
      assert (Os : forall (m m' : msg st) k, nth_error [m] k = Some m' -> k = 0 /\ m' = m) by (intros m m' [|[|k]] H; try discriminate; injection H as <-; auto).
      split.
      + constructor; rewrite Q; simpl.
        * intros j k m m' _ Hj Hk. apply Os in Hj as [_ ->]. apply Os in Hk as [_ ->]. auto.
        * intros k m m' _ _ Hk. destruct k; discriminate.
        * intros _ m [<-|[]] _. reflexivity.
        * now exists v.
      + exists (Msg SOME vbot false 0). rewrite Q. split; [reflexivity|]. split; [reflexivity|]. unfold covers. rewrite Q. split; [reflexivity|]. simpl. lia.
    - intros i m Hm. change (In m (ws (sl M i))) in Hm. destruct (init_slot l cp mx i) as [(A & v & Q & _)|(A & Q & _)]; fold M in Q; rewrite Q in Hm; destruct Hm as [<-|[]]; exact O.
    - intros i Hi. unfold latest in Hi. simpl in Hi. destruct (init_slot l cp mx i) as [(A & _)|(A & Q & ->)]; [lia|]. split; [exact Q|exact I].
    - discriminate.
    - repeat split; discriminate.
    - intros j k m m' _ Hj Hk. apply One in Hj as [_ ->]. apply One in Hk as [_ ->]. lia.
  Qed.
  Lemma init_idle (l : list V) cp mx id : exists f, wview (winit l cp mx) (g0 (length l)) id vbot (tokF f) /\ (0 < id -> f = true).
  Proof.
    exists (0 <? id). split; [|apply Nat.ltb_lt].
    assert (N : forall i, g0 (length l) i = GHas \/ g0 (length l) i = GFree) by (intros i; unfold g0; destruct (i <? length l); auto).
    constructor; simpl; try discriminate; try contradiction.
    - apply init_vok.
    - intros i. split; [intros X; destruct (N i); congruence|lia].
    - intros i. split; [intros X; destruct (N i); congruence|discriminate].
    - intros i. split; [intros X; destruct (N i); congruence|contradiction].
    - intros Hf m [<-|[]]. simpl. apply Nat.ltb_lt in Hf. lia.
    - split; discriminate.
  Qed.
  Lemma init_SI (l : list V) cp mx n q : capok E cp mx -> length l <= cp -> 0 < n -> SI (WCfg (winit l cp mx) (fun _ => vbot) [] n [] [] q) (g0 (length l)).
  Proof.
    intros Ck Hl Hn. constructor; simpl; try contradiction; try discriminate.
    - now apply init_WI.
    - constructor; simpl; try constructor; try discriminate; try contradiction; auto. intros id (t & x & A & _). discriminate.
    - intros id _. destruct (init_idle l cp mx id) as (f & A & B). exists f. split; [assumption|]. intros H. apply B. lia.
    - intros t. apply init_vok.
  Qed.

  (** ** Steps *)
  Lemma res_le M M' q : mle M M' -> good M -> good M' -> res_ok M q -> res_ok M' q.
  Proof.
    intros H G G' (A & B & C & D). split; [eapply vok_le; eauto|]. split; [eapply vok_le; eauto|]. split; [assumption|]. eapply opost_le; eauto.
  Qed.
  Lemma SI_after c g t x p M' g' tv' L' :
    SI c g -> wlookup t (w_run c) = Some x -> NI (wafter t c x p M' tv') -> WI M' g' -> wview M' g' (wc_id x) tv' L' -> guar (wc_id x) (w_mem c) g M' g' -> vle (w_view c t) tv' ->
    wpx x p L' M' tv' -> SI (wafter t c x p M' tv') g'.
  Proof.
    intros S Lk N' W' Vw Gu Le Wp. pose proof (proj1 Gu) as Ml. pose proof (si_wi _ _ S) as W. pose proof (si_ni _ _ S) as N.
    assert (G : good (w_mem c)) by now exists g. assert (G' : good M') by now exists g'. destruct (si_run _ _ S t x Lk) as (F1 & F2 & _).
    constructor; simpl; auto.
    - intros u y Hy. apply put_look in Hy as [[-> ->]|[Ne Hy]]; [| |apply N].
      + unfold upd. rewrite Nat.eqb_refl. split; [eapply vok_le; eauto|]. split; [eapply vle_trans; eauto|]. now exists L'.
      + unfold upd. destruct (Nat.eqb_spec u t); [congruence|]. apply (runs_stable (wc_id x) (w_mem c) g); auto; [|apply (si_run _ _ S u y Hy)].
        intros e. apply Ne. apply (ni_ids _ N u t y x Hy Lk e).
    - intros id. rewrite busy_put by (try apply N; eauto). intros Hb. destruct (si_idle _ _ S id Hb) as (f & A & B). exists f. split; [|assumption].
      refine (wview_stable ro (wc_id x) id _ _ _ _ _ _ _ Gu A). intros ->. apply Hb. exists t, x. auto.
    - intros u. unfold upd. destruct (Nat.eqb_spec u t); [apply (vw_ok _ _ _ _ _ _ Vw)|]. eapply vok_le; eauto. apply S.
    - intros q Hq. eapply res_le; eauto. apply S. assumption.
    - intros id o m Hq. eapply pan_le; eauto. now apply S.
  Qed.
  (** a call ends *)
  Lemma SI_end' c g t x L res pan :
    SI c g -> wlookup t (w_run c) = Some x -> wview (w_mem c) g (wc_id x) (w_view c t) L -> clean true L ->
    (forall q, In q res -> res_ok (w_mem c) q) -> (forall id o m, In (id, o, m) pan -> pan_ok (w_mem c) id o m) ->
    NI (WCfg (w_mem c) (w_view c) (wremove t (w_run c)) (w_next c) res pan (w_req c)) ->
    exists g', SI (WCfg (w_mem c) (w_view c) (wremove t (w_run c)) (w_next c) res pan (w_req c)) g' /\ guar (wc_id x) (w_mem c) g (w_mem c) g'.
  Proof.
    intros S Lk Vw (Cw & Cl & Cg & _) Hr Hp N'. pose proof (si_wi _ _ S) as W. pose proof (si_ni _ _ S) as N.
    destruct (lose E ro _ _ _ _ _ W Vw Cw Cl Cg) as (g' & W' & Gu & No). exists g'. split; [|exact Gu]. constructor; simpl; auto.
    - intros u y Hy. apply rem_look in Hy as [Ne Hy]; [|apply N]. apply (runs_stable (wc_id x) (w_mem c) g); auto; [|apply (si_run _ _ S u y Hy)].
      intros e. apply Ne. apply (ni_ids _ N u t y x Hy Lk e).
    - intros id Hb. destruct (Nat.eq_dec id (wc_id x)) as [->|Ne].
      + exists false. split; [|intros H; pose proof (ni_lt _ N (wc_id x) (ex_intro _ t (ex_intro _ x (conj Lk eq_refl)))); lia].
        constructor; simpl; try discriminate; try contradiction.
        * eapply vok_bot. apply (vw_ok _ _ _ _ _ _ Vw).
        * intros i. destruct (No i) as (A & _). split; [contradiction|lia].
        * intros i. destruct (No i) as (_ & A & _). split; [contradiction|discriminate].
        * intros i. destruct (No i) as (_ & _ & A). split; [contradiction|contradiction].
        * rewrite (vw_g _ _ _ _ _ _ Vw), Cg. reflexivity.
      + assert (Hb' : ~ busy (w_run c) id).
        { intros (u & y & A & B). apply Hb. exists u, y. split; [|assumption]. rewrite wlook_other; [assumption|]. intros ->. congruence. }
        destruct (si_idle _ _ S id Hb') as (f & A & B). exists f. split; [|assumption]. eapply wview_stable; eauto.
    - apply S.
  Qed.
  Lemma SI_end c g t x L res pan :
    SI c g -> wlookup t (w_run c) = Some x -> wview (w_mem c) g (wc_id x) (w_view c t) L -> clean true L ->
    (forall q, In q res -> res_ok (w_mem c) q) -> (forall id o m, In (id, o, m) pan -> pan_ok (w_mem c) id o m) ->
    NI (WCfg (w_mem c) (w_view c) (wremove t (w_run c)) (w_next c) res pan (w_req c)) ->
    exists g', SI (WCfg (w_mem c) (w_view c) (wremove t (w_run c)) (w_next c) res pan (w_req c)) g'.
  Proof. intros H1 H2 H3 H4 H5 H6 H7. destruct (SI_end' _ _ _ _ _ _ _ H1 H2 H3 H4 H5 H6 H7) as (g' & A & _). now exists g'. Qed.
  Lemma clean_any b L : clean b L -> clean true L.
  Proof. intros (A & B & C & _). repeat split; auto. discriminate. Qed.

  (** the reservation counter does not overflow: see [BI] *)
  Definition fits_now c : Prop := forall t x, wlookup t (w_run c) = Some x ->
    match wc_prog x with Act a _ | Spin a _ _ => fits E a (w_mem c) | _ => True end.

  Lemma SI_thread c g t k :
    SI c g -> fits_now c ->
    match wstep_thread E t k c with
    | WNext c' => exists g', SI c' g'
    | WFault _ => False
    | WDisabled => True
    end.
  Proof.
    intros S Fi. pose proof (si_ni _ _ S) as N. pose proof (fun c' => NI_step c (WStep t k) c' N) as Ns. simpl in Ns.
    destruct (wstep_thread E t k c) as [c'|f|] eqn:St; [specialize (Ns c' eq_refl)|clear Ns|exact I];
      unfold wstep_thread in St; (destruct (wlookup t (w_run c)) as [x|] eqn:Lk; [|discriminate]);
      destruct (si_run _ _ S t x Lk) as (F1 & F2 & L & Vw & Wp);
      pose proof (Fi t x Lk) as Fx;
      (destruct (wc_prog x) as [r|m|a kk|a again kk] eqn:Hp; simpl in Wp).
    - injection St as <-. destruct Wp as [Cl Op]. eapply SI_end; eauto using clean_any; [|apply S]. intros q Hq. apply in_app_or in Hq as [Hq|[<-|[]]]; [now apply S|].
      split; [assumption|]. split; [apply S|]. split; assumption.
    - injection St as <-. pose proof (pan_now _ _ _ _ _ (ex_intro _ g (si_wi _ _ S)) Wp) as Px. destruct Wp as [[Nb Cl] _]. eapply SI_end; eauto using clean_any; [apply S|]. intros id o m' Hq. apply in_app_or in Hq as [Hq|[Hq|[]]]; [apply (si_pan _ _ S _ _ _ Hq)|].
      now injection Hq as <- <- <-.
    - specialize (Wp (w_mem c) (w_view c t) (mle_refl _ _) (vle_refl _) (ex_intro _ g (si_wi _ _ S)) (si_view _ _ S t) (w_mem c) g k (mle_refl _ _) (si_wi _ _ S) Vw). destruct (wexec E (wc_id x) a k (w_mem c) (w_view c t)) as [y M' tv'|f|]; try discriminate. injection St as <-.
      destruct Wp as [Wp|(_ & g' & L' & A & B & C & D & F)]; [exact Fx|discriminate|]. exists g'. eapply SI_after; eauto.
    - specialize (Wp (w_mem c) (w_view c t) (mle_refl _ _) (vle_refl _) (ex_intro _ g (si_wi _ _ S)) (si_view _ _ S t) (w_mem c) g k (mle_refl _ _) (si_wi _ _ S) Vw). destruct (wexec E (wc_id x) a k (w_mem c) (w_view c t)) as [y M' tv'|f|]; try discriminate.
      destruct Wp as [Wp|(Wp & g' & L' & A & B & C & D & F)].
      + exact Fx.
      + rewrite Wp in St. injection St as <-. now exists g.
      + rewrite Wp in St. injection St as <-. exists g'. eapply SI_after; eauto.
    - discriminate.
    - discriminate.
    - specialize (Wp (w_mem c) (w_view c t) (mle_refl _ _) (vle_refl _) (ex_intro _ g (si_wi _ _ S)) (si_view _ _ S t) (w_mem c) g k (mle_refl _ _) (si_wi _ _ S) Vw). destruct (wexec E (wc_id x) a k (w_mem c) (w_view c t)) as [y M' tv'|f'|]; try discriminate.
      apply Wp. exact Fx.
    - specialize (Wp (w_mem c) (w_view c t) (mle_refl _ _) (vle_refl _) (ex_intro _ g (si_wi _ _ S)) (si_view _ _ S t) (w_mem c) g k (mle_refl _ _) (si_wi _ _ S) Vw). destruct (wexec E (wc_id x) a k (w_mem c) (w_view c t)) as [y M' tv'|f'|]; try discriminate; [destruct (again y); discriminate|].
      apply Wp. exact Fx.
  Qed.

  Lemma grant_eq (a b : grant) : grant_eqb a b = true -> a = b.
  Proof.
    destruct a as [i|[a n]|i], b as [j|[b m]|j]; simpl; try discriminate; rewrite ?andb_true_iff, ?Nat.eqb_eq; intros; intuition congruence.
  Qed.
  Lemma SI_inv c g t o from c' : SI c g -> allowed E ro false o -> wstep E c (WInv t o from) = WNext c' -> SI c' g.
  Proof.
    intros S Al St. pose proof (si_ni _ _ S) as N. pose proof (NI_step _ _ _ N St) as N'. simpl in St.
    destruct (wlookup t (w_run c)) eqn:Lk; [discriminate|]. destruct (fetch o from (w_res c)) as [v|] eqn:Fe; [|discriminate]. injection St as <-.
    pose proof (si_wi _ _ S) as W. assert (G : good (w_mem c)) by now exists g. set (tv := vjoin (w_view c t) v).
    assert (Ov : vok (w_mem c) v /\ forall y, needs o = Some y -> gok ro (w_mem c) v y).
    { unfold fetch in Fe. destruct (needs o) as [y|]; [|injection Fe as <-; split; [eapply vok_bot; apply (si_view _ _ S t)|discriminate]].
      destruct (nth_error (w_res c) from) as [q|] eqn:Q; [|discriminate]. destruct (existsb (grant_eqb y) (grants (r_ret q))) eqn:Ex; [|discriminate]. injection Fe as <-.
      apply existsb_exists in Ex as (z & Hz & He). apply grant_eq in He as <-. destruct (si_res _ _ S q (nth_error_In _ _ Q)) as (A & B & C & D). split; [assumption|].
      intros y' [= <-]. apply D. assumption. }
    destruct Ov as [Ov Gk]. assert (Ot : vok (w_mem c) tv) by (apply vok_join; [apply S|assumption]).
    assert (Nb : ~ busy (w_run c) (w_next c)) by (intros X; apply (ni_lt _ N) in X; lia).
    constructor; auto; simpl.
    - intros u y. destruct (Nat.eqb_spec u t) as [->|Ne].
      + intros [= <-]. unfold upd. rewrite Nat.eqb_refl. split; [exact Ot|]. split; [apply vle_refl|]. exists tok0. split.
        * destruct (si_idle _ _ S _ Nb) as (f & A & B). rewrite B in A by lia. eapply wview_up; [exact A| |assumption].
          split; [simpl; lia|]. split; [simpl; lia|]. split; [simpl; lia|]. split; [intros; simpl; lia|]. split; [intros; simpl; lia|]. discriminate.
        * apply w_op; auto; [now split|]. intros y Hy. eapply gok_up; [|exact G|now apply Gk]. apply mk_up; auto using mle_refl. apply vle_join_r.
      + intros Hy. unfold upd. destruct (Nat.eqb_spec u t); [congruence|]. now apply S.
    - intros id Hb. assert (Hb' : ~ busy (w_run c) id /\ id <> w_next c).
      { split; [intros (u & y & A & B)|intros ->]; apply Hb; [exists u, y|exists t; eexists]; simpl; [|rewrite Nat.eqb_refl; split; [reflexivity|reflexivity]].
        destruct (Nat.eqb_spec u t); [congruence|auto]. }
      destruct Hb' as [Hb' Ne]. destruct (si_idle _ _ S _ Hb') as (f & A & B). exists f. split; [assumption|]. intros X. apply B. lia.
    - intros u. unfold upd. destruct (u =? t); [exact Ot|apply S].
    - apply S.
    - apply S.
  Qed.
  Lemma vle_joinl (x y : view) : vle x (vjoin x y).
  Proof. unfold vle, vjoin. simpl. repeat split; intros; try lia. rewrite H. reflexivity. Qed.
  Lemma SI_sync c g t u c' : SI c g -> wstep E c (WSync t u) = WNext c' -> SI c' g.
  Proof.
    intros S St. pose proof (NI_step _ _ _ (si_ni _ _ S) St) as N'. simpl in St. injection St as <-.
    assert (G : good (w_mem c)) by (exists g; apply S). assert (O : vok (w_mem c) (vjoin (w_view c t) (w_view c u))) by (apply vok_join; apply S).
    constructor; auto; simpl; try apply S.
    - intros w y Hy. unfold upd. destruct (Nat.eqb_spec w t) as [->|]; [|now apply S]. destruct (si_run _ _ S t y Hy) as (F1 & F2 & L & Vw & Wp).
      assert (Vl : vle (w_view c t) (vjoin (w_view c t) (w_view c u))) by apply vle_joinl.
      split; [assumption|]. split; [eapply vle_trans; eauto|]. exists L. split; [eapply wview_up; eauto|].
      eapply wp_up; eauto. apply mk_up; auto using mle_refl. apply S.
    - intros w. unfold upd. destruct (w =? t); [assumption|apply S].
  Qed.
  Lemma SI_clear c g c' : SI c g -> wstep E c WClear = WNext c' -> exists g', SI c' g'.
  Proof.
    intros S St. simpl in St. destruct (w_run c); [|discriminate]. destruct (latest _ <=? latest _); [|discriminate]. injection St as <-. exists (g0 0).
    apply (init_SI []); [apply (wi_cap_ok _ _ _ _ (si_wi _ _ S))|simpl; lia|exact (ni_next _ (si_ni _ _ S))].
  Qed.
  Lemma SI_reserve c g n c' : SI c g -> wstep E c (WReserve n) = WNext c' -> SI c' g.
  Proof.
    intros S St. pose proof (NI_step _ _ _ (si_ni _ _ S) St) as N'. simpl in St. destruct (w_run c) eqn:R; [|discriminate].
    pose proof (si_wi _ _ S) as W. destruct (reserve E _ _ n) as [mx|] eqn:Re; [|injection St as <-; assumption]. injection St as <-.
    pose proof (proj2 (ok_res E EOK _ _ _ _ (wi_cap_ok _ _ _ _ W) Re)) as Ck.
    assert (Id : forall id, exists f, wview (w_mem c) g id vbot (tokF f) /\ (w_next c <= id -> f = true)).
    { intros id. apply (si_idle _ _ S). rewrite R. intros (t & x & A & _). discriminate. }
    set (M' := WMem _ _ _ _ _ _).
    assert (W' : WI M' g).
    { destruct W. constructor; try assumption; [|discriminate]. intros i. apply (slotok_ext ro (w_mem c)); [reflexivity|apply wi_slot]. }
    constructor; simpl; try assumption; try discriminate; try apply S.
    - intros id _. destruct (Id id) as (f & A & B). exists f. split; [|assumption]. destruct A. constructor; try assumption. simpl. split; discriminate.
  Qed.

  (** ** Reservations: every call makes at most one, and they are at most as many as asked for. *)
  Definition pend x : nat := match wc_prog x with Act (AddResv n _) _ => n | _ => 0 end.
  Definition pends (r : list (nat * wcall V)) : nat := list_sum (map (fun p => pend (snd p)) r).
  Lemma pends_cons t x r : pends ((t, x) :: r) = pend x + pends r.
  Proof. reflexivity. Qed.
  Lemma pends_rem t r x : wlookup t r = Some x -> pends r = pend x + pends (wremove t r).
  Proof.
    unfold pends. induction r as [|[u y] r IH]; simpl; [discriminate|]. destruct (t =? u); [intros [= ->]; reflexivity|]. intros H. simpl. rewrite (IH H). lia.
  Qed.
  Definition phase x : Prop := (grows (wc_op x) = true /\ wc_prog x = op_prog E (wc_op x)) \/ tail (wc_op x) (wc_prog x).
  Lemma tail_pend x : tail (wc_op x) (wc_prog x) -> pend x = 0.
  Proof. unfold tail, pend. destruct (wc_prog x) as [| |a k|a ag k]; try reflexivity. intros [H _]. destruct a; try reflexivity. destruct H. Qed.
  Lemma wexec_resv id (a : act V) k M tv y M' tv' : wexec E id a k M tv = WDone y M' tv' ->
    (exists n r, a = AddResv n r /\ exists v, m_resv M' = m_resv M ++ [Msg ((latest (m_resv M) + n) mod wmod E) v true id]) \/
    ((forall n r, a <> AddResv n r) /\ m_resv M' = m_resv M).
  Proof.
    destruct a; simpl; unfold with_wslot; intros H;
      try (right; split; [intros ? ?; discriminate|];
           repeat match goal with
             | H : context [if ?b then _ else _] |- _ => destruct b
             | H : context [match ?b with _ => _ end] |- _ => destruct b
             end; try discriminate; injection H as <- <- <-; reflexivity).
    left. exists n, o. split; [reflexivity|]. unfold latest. destruct (nth_error (m_resv M) (last_ts (m_resv M))); [|discriminate]. injection H as <- <- <-. simpl. eauto.
  Qed.
  Lemma wexec_cap id (a : act V) k M tv y M' tv' : wexec E id a k M tv = WDone y M' tv' -> m_cap M' = m_cap M \/ exists m, m_cap M' = m_cap M ++ [m].
  Proof.
    destruct a; simpl; unfold with_wslot; intros H;
      repeat match goal with
        | H : context [if ?b then _ else _] |- _ => destruct b
        | H : context [match ?b with _ => _ end] |- _ => destruct b
        end; try discriminate; injection H as <- <- <-; simpl; eauto.
  Qed.
  Lemma pend_op o id v : pend (WCall id o v (op_prog E o)) = request o.
  Proof.
    destruct (grows o) eqn:Gr.
    - destruct (grow_shape E o Gr) as (k & Hk & _). unfold pend. simpl. now rewrite Hk.
    - pose proof (op_shape E o Gr) as Sh. rewrite (tail_pend (WCall id o v (op_prog E o)) Sh). destruct o; simpl in *; congruence.
  Qed.
  (** who made a reservation *)
  Definition who c (id : nat) : Prop :=
    (exists t x, wlookup t (w_run c) = Some x /\ wc_id x = id /\ grows (wc_op x) = true /\ tail (wc_op x) (wc_prog x)) \/
    (exists q, In q (w_res c) /\ r_id q = id /\ grows (r_op q) = true) \/
    (exists o m, In (id, o, m) (w_panics c) /\ grows o = true).
  Record BI c : Prop := MkBI {
    b_ph : forall t x, wlookup t (w_run c) = Some x -> phase x;
    b_le : latest (m_resv (w_mem c)) + pends (w_run c) = w_req c;
    b_wm : w_req c < wmod E;
    b_who : forall k m, nth_error (m_resv (w_mem c)) (S k) = Some m -> who c (mby m);
    b_one : forall j k m m', nth_error (m_resv (w_mem c)) (S j) = Some m -> nth_error (m_resv (w_mem c)) (S k) = Some m' -> mby m = mby m' -> j = k;
    b_zero : forall m m', nth_error (m_resv (w_mem c)) 0 = Some m -> nth_error (m_cap (w_mem c)) 0 = Some m' -> mval m <= mval m'
  }.
  Lemma BI_fits c : BI c -> fits_now c.
  Proof.
    intros B t x Lk. pose proof (pends_rem t _ _ Lk) as Hs. pose proof (b_le _ B). pose proof (b_wm _ B). pose proof (b_ph _ B t x Lk) as Ph. unfold pend in Hs.
    destruct (wc_prog x) as [r|m|a k|a ag k] eqn:Hp; auto; destruct a; simpl; auto; [lia|]. exfalso. destruct Ph as [[Gr Hx]|Tl].
    - destruct (grow_shape E (wc_op x) Gr) as (k' & Hk & _). congruence.
    - unfold tail in Tl. rewrite Hp in Tl. destruct Tl as [[] _].
  Qed.
  Lemma who_mono c c' id :
    (forall t x, wlookup t (w_run c) = Some x -> wc_id x = id -> grows (wc_op x) = true -> tail (wc_op x) (wc_prog x) -> who c' id) ->
    (forall q, In q (w_res c) -> In q (w_res c')) -> (forall y, In y (w_panics c) -> In y (w_panics c')) -> who c id -> who c' id.
  Proof.
    intros H1 H2 H3 [(t & x & A & B & C & D)|[(q & A & B)|(o & m & A & B)]].
    - eauto.
    - right. left. exists q. auto.
    - right. right. exists o, m. auto.
  Qed.
  Lemma nth_snoc {A} (l : list A) a k b : nth_error (l ++ [a]) k = Some b -> nth_error l k = Some b \/ (k = length l /\ b = a).
  Proof.
    intros H. destruct (Nat.lt_ge_cases k (length l)) as [X|X]; [rewrite nth_error_app1 in H by assumption; auto|].
    rewrite nth_error_app2 in H by assumption. destruct (k - length l) as [|j] eqn:D; simpl in H; [injection H as <-; right; split; [lia|reflexivity]|destruct j; discriminate].
  Qed.
  Lemma latest_snoc (l : list (msg nat)) m : latest (l ++ [m]) = mval m.
  Proof. unfold latest, last_ts. rewrite app_length. simpl. replace (length l + 1 - 1) with (length l) by lia. rewrite nth_error_app2, Nat.sub_diag by lia. reflexivity. Qed.

  (** one access of a call *)
  Lemma BI_access c t x a k M' tv' (kk : res a -> prog V (ret V)) y :
    BI c -> NI c -> wlookup t (w_run c) = Some x -> m_resv (w_mem c) <> [] -> m_cap (w_mem c) <> [] ->
    (wc_prog x = Act a kk \/ (exists ag, wc_prog x = Spin a ag kk)) -> wexec E (wc_id x) a k (w_mem c) (w_view c t) = WDone y M' tv' ->
    BI (wafter t c x (kk y) M' tv').
  Proof.
    intros B N Lk Nr Nc Hp Ex. set (x' := WCall (wc_id x) (wc_op x) (wc_from x) (kk y)).
    pose proof (b_ph _ B t x Lk) as Ph. pose proof (pends_rem t _ _ Lk) as Hs. pose proof (b_le _ B) as Hle. pose proof (b_wm _ B) as Hwm.
    assert (Zc : forall m m', nth_error (m_resv (w_mem c)) 0 = Some m -> nth_error (m_cap M') 0 = Some m' -> mval m <= mval m').
    { intros m m' H1 H2. apply (b_zero _ B m m' H1). destruct (wexec_cap _ _ _ _ _ _ _ _ Ex) as [e|(mm & e)]; rewrite e in H2; [assumption|]. destruct (m_cap (w_mem c)); [congruence|assumption]. }
    destruct (wexec_resv _ _ _ _ _ _ _ _ Ex) as [(n & r & -> & v & Hr)|[Na Hr]].
    - (* a reservation *)
      assert (Hx : grows (wc_op x) = true /\ tail (wc_op x) (kk y) /\ pend x = n).
      { destruct Ph as [[Gr Hx]|Tl].
        - destruct (grow_shape E (wc_op x) Gr) as (k' & Hk & Tk). split; [assumption|]. rewrite Hk in Hx. destruct Hp as [Hp|(ag & Hp)]; rewrite Hp in Hx; [|discriminate].
          split; [|unfold pend; now rewrite Hp].
          pose proof (f_equal (fun p => match p with Act (AddResv q rr) f => fun z => tail (wc_op x) (f z) | _ => fun _ => False end) Hx) as Fe. simpl in Fe.
          change ((fun z : nat => tail (wc_op x) (kk z)) y). rewrite Fe. apply Tk.
        - unfold tail in Tl. destruct Hp as [Hp|(ag & Hp)]; rewrite Hp in Tl; destruct Tl as [[] _]. }
      destruct Hx as (Gr & Tl & Pn). assert (Nt : ~ tail (wc_op x) (wc_prog x)).
      { unfold tail. destruct Hp as [Hp|(ag & Hp)]; rewrite Hp; intros [[] _]. }
      assert (Nw : ~ who c (wc_id x)).
      { intros [(u & z & A1 & A2 & A3 & A4)|[(q & A1 & A2 & A3)|(o & m & A1 & A2)]].
        - assert (u = t) as -> by (apply (ni_ids _ N u t z x A1 Lk A2)). congruence.
        - apply (ni_res_lt _ N q A1). rewrite A2. exists t, x. auto.
        - apply (ni_pan_lt _ N _ _ _ A1). exists t, x. auto. }
      assert (Hv : (latest (m_resv (w_mem c)) + n) mod wmod E = latest (m_resv (w_mem c)) + n) by (apply Nat.mod_small; lia).
      assert (Wx : who (wafter t c x (kk y) M' tv') (wc_id x)).
      { left. exists t, x'. simpl. rewrite Nat.eqb_refl. auto. }
      constructor.
      + intros u z Hz. simpl in Hz. destruct (Nat.eqb_spec u t) as [->|Ne]; [injection Hz as <-; right; assumption|]. rewrite wlook_other in Hz by assumption. apply (b_ph _ B u z Hz).
      + simpl w_mem. simpl w_run. simpl w_req. rewrite Hr, latest_snoc. simpl mval. rewrite Hv. fold x'. rewrite pends_cons, (tail_pend x' Tl). lia.
      + assumption.
      + simpl w_mem. rewrite Hr. intros j m Hm. apply nth_snoc in Hm as [Hm|[_ ->]]; [|exact Wx]. eapply who_mono; [| | |apply (b_who _ B j m Hm)]; [|simpl; auto|simpl; auto].
        intros u z A1 A2 A3 A4. left. exists u, z. simpl. destruct (Nat.eqb_spec u t) as [->|Ne]; [exfalso; congruence|]. rewrite wlook_other by assumption. auto.
      + simpl w_mem. rewrite Hr. intros i j m m' Hi Hj e. apply nth_snoc in Hi as [Hi|[Li ->]]; apply nth_snoc in Hj as [Hj|[Lj ->]].
        * apply (b_one _ B i j m m' Hi Hj e).
        * exfalso. apply Nw. simpl in e. rewrite <- e. apply (b_who _ B i m Hi).
        * exfalso. apply Nw. simpl in e. rewrite e. apply (b_who _ B j m' Hj).
        * lia.
      + simpl w_mem. rewrite Hr. intros m m' H1. apply Zc. destruct (m_resv (w_mem c)); [congruence|assumption].
    - assert (Tl : tail (wc_op x) (wc_prog x)).
      { destruct Ph as [[Gr Hx]|Tl]; [|assumption]. destruct (grow_shape E (wc_op x) Gr) as (k' & Hk & _). exfalso. rewrite Hk in Hx. destruct Hp as [Hp|(ag & Hp)]; rewrite Hp in Hx; [|discriminate].
        injection Hx. intros _ e. eapply Na. exact e. }
      assert (Tl' : tail (wc_op x) (kk y)) by (unfold tail in *; destruct Hp as [Hp|(ag & Hp)]; rewrite Hp in Tl; apply Tl).
      constructor.
      + intros u z Hz. simpl in Hz. destruct (Nat.eqb_spec u t) as [->|Ne]; [injection Hz as <-; right; assumption|]. rewrite wlook_other in Hz by assumption. apply (b_ph _ B u z Hz).
      + simpl w_mem. simpl w_run. simpl w_req. rewrite Hr. fold x'. rewrite pends_cons, (tail_pend x' Tl'). rewrite (tail_pend x Tl) in Hs. lia.
      + assumption.
      + simpl w_mem. rewrite Hr. intros j m Hm. eapply who_mono; [| | |apply (b_who _ B j m Hm)]; [|simpl; auto|simpl; auto].
        intros u z A1 A2 A3 A4. left. destruct (Nat.eq_dec u t) as [->|Ne].
        * exists t, x'. simpl. rewrite Nat.eqb_refl. rewrite Lk in A1. injection A1 as <-. auto.
        * exists u, z. simpl. destruct (Nat.eqb_spec u t) as [->|_]; [congruence|]. rewrite wlook_other by assumption. auto.
      + simpl w_mem. rewrite Hr. apply B.
      + simpl w_mem. rewrite Hr. apply Zc.
  Qed.
  (** a call ends *)
  Lemma BI_end c t x res pan :
    BI c -> NI c -> wlookup t (w_run c) = Some x -> match wc_prog x with Ret _ | Pan _ => True | _ => False end ->
    (forall q, In q (w_res c) -> In q res) -> (forall y, In y (w_panics c) -> In y pan) ->
    (grows (wc_op x) = true -> (exists q, In q res /\ r_id q = wc_id x /\ grows (r_op q) = true) \/ (exists o m, In (wc_id x, o, m) pan /\ grows o = true)) ->
    BI (WCfg (w_mem c) (w_view c) (wremove t (w_run c)) (w_next c) res pan (w_req c)).
  Proof.
    intros B N Lk Hp Hr Hq Hx. pose proof (pends_rem t _ _ Lk) as Hs. assert (P0 : pend x = 0) by (unfold pend; destruct (wc_prog x); tauto). constructor; simpl.
    - intros u z Hz. apply rem_look in Hz as [_ Hz]; [|apply N]. apply (b_ph _ B u z Hz).
    - pose proof (b_le _ B). lia.
    - apply B.
    - intros k m Hm. eapply who_mono; [| | |apply (b_who _ B k m Hm)]; simpl; auto. intros u z A1 A2 A3 A4. destruct (Nat.eq_dec u t) as [->|Ne].
      + rewrite Lk in A1. injection A1 as <-. right. rewrite <- A2. now apply Hx.
      + left. exists u, z. simpl. rewrite wlook_other by assumption. auto.
    - apply B.
    - apply B.
  Qed.
  Lemma BI_init (l : list V) cp mx n : length l <= cp -> length l < wmod E -> BI (WCfg (winit l cp mx) (fun _ => vbot) [] n [] [] (length l)).
  Proof.
    intros H1 H2. constructor; simpl; try discriminate; auto.
    - intros [|k] m Hm; discriminate.
    - intros [|j] k m m' Hm; discriminate.
    - intros m m' [= <-] [= <-]. exact H1.
  Qed.
  Lemma BI_step c g l c' : SI c g -> BI c -> wclient E ro c l -> wstep E c l = WNext c' -> BI c'.
  Proof.
    intros S B Cl St. pose proof (si_ni _ _ S) as N. destruct (wi_ne _ _ _ _ (si_wi _ _ S)) as (Nr & _ & Nc). destruct l as [t o from|t k|t u| |n]; simpl in St, Cl.
    - destruct (wlookup t (w_run c)) eqn:Lk; [discriminate|]. destruct (fetch o from (w_res c)) as [v|]; [|discriminate]. injection St as <-. constructor; simpl w_mem; simpl w_req; simpl w_run.
      + intros u z Hz. simpl in Hz. destruct (Nat.eqb_spec u t) as [->|Ne]; [|apply (b_ph _ B u z Hz)]. injection Hz as <-. unfold phase. simpl.
        destruct (grows o) eqn:Gr; [now left|right; now apply op_shape].
      + rewrite pends_cons, pend_op. pose proof (b_le _ B). lia.
      + apply Cl.
      + intros k m Hm. eapply who_mono; [| | |apply (b_who _ B k m Hm)]; simpl; auto. intros u z A1 A2 A3 A4. left. exists u, z. simpl. destruct (Nat.eqb_spec u t) as [->|Ne]; [congruence|auto].
      + apply B.
      + apply B.
    - unfold wstep_thread in St. destruct (wlookup t (w_run c)) as [x|] eqn:Lk; [|discriminate]. destruct (wc_prog x) as [r|m|a kk|a again kk] eqn:Hp.
      + injection St as <-. apply (BI_end c t x); auto; [now rewrite Hp|intros; apply in_or_app; auto|]. intros Gr. left. eexists. split; [apply in_or_app; right; left; reflexivity|auto].
      + injection St as <-. apply (BI_end c t x); auto; [now rewrite Hp|intros; apply in_or_app; auto|]. intros Gr. right. eexists; eexists. split; [apply in_or_app; right; left; reflexivity|auto].
      + destruct (wexec E (wc_id x) a k (w_mem c) (w_view c t)) as [y M' tv'|f|] eqn:Ex; try discriminate. injection St as <-. eapply BI_access; eauto.
      + destruct (wexec E (wc_id x) a k (w_mem c) (w_view c t)) as [y M' tv'|f|] eqn:Ex; try discriminate. destruct (again y); injection St as <-; [assumption|]. eapply BI_access; eauto.
    - injection St as <-. destruct B as [B1 B2 B3 B4 B5 B6]. constructor; auto.
    - destruct (w_run c); [|discriminate]. destruct (latest _ <=? latest _); [|discriminate]. injection St as <-. apply (BI_init []); simpl; [lia|]. pose proof (b_wm _ B). lia.
    - destruct (w_run c) eqn:R; [|discriminate]. destruct (reserve E _ _ n); injection St as <-; [|assumption].
      destruct B as [B1 B2 B3 B4 B5 B6]. unfold who in B4. rewrite R in *. constructor; simpl; auto.
  Qed.

  (** without running calls and without failed growth every reserved position is allocated *)
  Lemma filled c g : SI c g -> BI c -> w_run c = [] -> (forall id o m, In (id, o, m) (w_panics c) -> ~ overran o m) ->
    latest (m_resv (w_mem c)) <= latest (m_cap (w_mem c)).
  Proof.
    intros S B R Hp. pose proof (si_wi _ _ S) as W. destruct (wi_ne _ _ _ _ W) as (Nr & _ & Nc).
    assert (Cap : forall j m, nth_error (m_cap (w_mem c)) j = Some m -> mval m <= latest (m_cap (w_mem c))).
    { intros j m Hj. unfold latest, last_ts. assert (j < length (m_cap (w_mem c))) by (apply nth_error_Some; congruence).
      destruct (nth_error (m_cap (w_mem c)) (length (m_cap (w_mem c)) - 1)) as [m'|] eqn:Q; [|apply nth_error_None in Q; lia].
      destruct (Nat.eq_dec j (length (m_cap (w_mem c)) - 1)) as [->|Ne]; [rewrite Hj in Q; injection Q as <-; lia|].
      apply Nat.lt_le_incl. apply (wi_cap _ _ _ _ W j (length (m_cap (w_mem c)) - 1) m m'); auto. lia. }
    assert (All : forall k m, nth_error (m_resv (w_mem c)) k = Some m -> mval m <= latest (m_cap (w_mem c))).
    { induction k as [|k IH]; intros m Hm.
      - destruct (m_cap (w_mem c)) as [|m' l] eqn:Ec; [congruence|]. transitivity (mval m'); [apply (b_zero _ B m m' Hm); now rewrite Ec|apply (Cap 0 m' eq_refl)].
      - destruct (b_who _ B k m Hm) as [(t & x & A & _)|[(q & A1 & A2 & A3)|(o & mm & A1 & A2)]]; [rewrite R in A; discriminate| |].
        2: { destruct (proj2 (si_pan _ _ S _ _ _ A1) A2) as [X|(b & (k' & m1 & m2 & B1 & B2 & B3 & B4 & B5) & St)]; [destruct (Hp _ _ _ A1 X)|].
          assert (k' = k) as -> by (apply (b_one _ B k' k m1 m B3 Hm); congruence). rewrite Hm in B3. injection B3 as <-. rewrite B4.
          destruct (request o) as [|n]; [rewrite Nat.add_0_r; rewrite <- B2; now apply IH|]. apply St. lia. }
        destruct (si_res _ _ S q A1) as (_ & Ot & _ & _ & Op).
        assert (X : exists b, block (r_id q) (w_mem c) b (request (r_op q)) /\ stored ro (w_mem c) (r_to q) (r_op q) b) by (destruct (r_op q); try discriminate A3; destruct Op as (b & _ & Op); eauto).
        destruct X as (b & (k' & m1 & m2 & B1 & B2 & B3 & B4 & B5) & St). assert (k' = k) as -> by (apply (b_one _ B k' k m1 m B3 Hm); congruence).
        rewrite Hm in B3. injection B3 as <-. rewrite B4. destruct (request (r_op q)) as [|n] eqn:Rq; [rewrite Nat.add_0_r; rewrite <- B2; now apply IH|].
        destruct (St n) as [[[X _] _] _]; [lia|]. unfold capv in X. destruct (nth_error (m_cap (w_mem c)) (v_cap (r_to q))) as [mc|] eqn:Q; [|lia]. apply Cap in Q. lia. }
    unfold latest at 1. destruct (nth_error (m_resv (w_mem c)) (last_ts (m_resv (w_mem c)))) as [m|] eqn:Q; [now apply (All _ m Q)|lia].
  Qed.

  (** ** Every step of a client *)
  Theorem client_step c g l : SI c g -> BI c -> wclient E ro c l ->
    match wstep E c l with
    | WNext c' => exists g', SI c' g' /\ BI c'
    | WFault _ => False
    | WDisabled => True
    end.
  Proof.
    intros S B Cl. pose proof (fun c' => BI_step c g l c' S B Cl) as Bs.
    assert (X : match wstep E c l with WNext c' => exists g', SI c' g' | WFault _ => False | WDisabled => True end).
    { destruct l as [t o from|t k|t u| |n].
      - destruct (wstep E c (WInv t o from)) as [c'|f|] eqn:St; auto.
        + exists g. eapply SI_inv; eauto. apply Cl.
        + simpl in St. destruct (wlookup t (w_run c)); [discriminate|]. destruct (fetch _ _ _); discriminate.
      - apply (SI_thread c g t k); auto. now apply BI_fits.
      - destruct (wstep E c (WSync t u)) as [c'|f|] eqn:St; auto; [exists g; eapply SI_sync; eauto|]. simpl in St. discriminate.
      - destruct (wstep E c WClear) as [c'|f|] eqn:St; auto; [eapply SI_clear; eauto|]. simpl in St. destruct (w_run c) eqn:R; [|discriminate].
        pose proof (filled c g S B R Cl). destruct (Nat.leb_spec (latest (m_resv (w_mem c))) (latest (m_cap (w_mem c)))); [discriminate|lia].
      - destruct (wstep E c (WReserve n)) as [c'|f|] eqn:St; auto; [exists g; eapply SI_reserve; eauto|]. simpl in St. destruct (w_run c); [|discriminate]. destruct (reserve E _ _ n); discriminate. }
    destruct (wstep E c l) as [c'|f|]; auto. destruct X as (g' & X). exists g'. auto.
  Qed.

  (** ** Views only grow, and no thread is blocked *)
  Lemma upd_view (f : nat -> view) t tv u : vle (f t) tv -> vle (f u) (upd f t tv u).
  Proof. intros H. unfold upd. destruct (Nat.eqb_spec u t) as [->|]; [assumption|apply vle_refl]. Qed.
  Lemma step_views c g l c' : SI c g -> BI c -> wstep E c l = WNext c' -> l <> WClear -> forall u, vle (w_view c u) (w_view c' u).
  Proof.
    intros S B St Nl u. pose proof (BI_fits _ B) as Fi. destruct l as [t o from|t k|t w| |n]; simpl in St; [| | |congruence|].
    - destruct (wlookup t (w_run c)); [discriminate|]. destruct (fetch _ _ _); [|discriminate]. injection St as <-. simpl. apply upd_view, vle_joinl.
    - unfold wstep_thread in St. destruct (wlookup t (w_run c)) as [x|] eqn:Lk; [|discriminate]. destruct (si_run _ _ S t x Lk) as (F1 & F2 & L & Vw & Wp). pose proof (Fi t x Lk) as Fx.
      destruct (wc_prog x) as [r|m|a kk|a again kk] eqn:Hp; simpl in Wp.
      + injection St as <-. apply vle_refl.
      + injection St as <-. apply vle_refl.
      + specialize (Wp (w_mem c) (w_view c t) (mle_refl _ _) (vle_refl _) (ex_intro _ g (si_wi _ _ S)) (si_view _ _ S t) (w_mem c) g k (mle_refl _ _) (si_wi _ _ S) Vw). destruct (wexec E (wc_id x) a k (w_mem c) (w_view c t)) as [y M' tv'|f|]; try discriminate. injection St as <-.
        destruct Wp as [Wp|(_ & g' & L' & A & C & D & F & G)]; [exact Fx|discriminate|]. simpl. now apply upd_view.
      + specialize (Wp (w_mem c) (w_view c t) (mle_refl _ _) (vle_refl _) (ex_intro _ g (si_wi _ _ S)) (si_view _ _ S t) (w_mem c) g k (mle_refl _ _) (si_wi _ _ S) Vw). destruct (wexec E (wc_id x) a k (w_mem c) (w_view c t)) as [y M' tv'|f|]; try discriminate.
        destruct Wp as [Wp|(Wp & g' & L' & A & C & D & F & G)]; [exact Fx| |]; rewrite Wp in St; injection St as <-; [apply vle_refl|]. simpl. now apply upd_view.
    - injection St as <-. simpl. apply upd_view, vle_joinl.
    - destruct (w_run c); [|discriminate]. destruct (reserve E _ _ n); injection St as <-; apply vle_refl.
  Qed.
  Lemma last_view {A} (l : list (msg A)) k : k < length l -> exists m, nth_error l (last_ts l) = Some m /\ (k <=? last_ts l) = true.
  Proof.
    intros H. unfold last_ts. destruct (nth_error l (length l - 1)) as [m|] eqn:Q; [|apply nth_error_None in Q; lia]. exists m. split; [reflexivity|]. apply Nat.leb_le. lia.
  Qed.
  Lemma after_last {A} (l : list (msg A)) : nth_error l (S (last_ts l)) = None.
  Proof. apply nth_error_None. unfold last_ts. lia. Qed.
  Lemma exec_enabled id (a : act V) M g tv : WI M g -> vok M tv -> wexec E id a (newest a M) M tv <> WNone.
  Proof.
    intros W (O1 & O2 & O3 & O4 & _). destruct (wi_ne _ _ _ _ W) as (N1 & N2 & N3).
    assert (Ns : forall i, ws (m_slots M i) <> []) by (intros i e; specialize (O4 i); change (v_st tv i < length (ws (m_slots M i))) in O4; rewrite e in O4; simpl in O4; lia).
    assert (O4' : forall i, v_st tv i < length (ws (m_slots M i))) by (intros i; apply (O4 i)).
    destruct (last_view _ _ O1) as (m1 & E1 & L1). destruct (last_view _ _ O2) as (m2 & E2 & L2). destruct (last_view _ _ O3) as (m3 & E3 & L3).
    destruct a; cbn [wexec newest]; unfold with_wslot; rewrite ?E1, ?E2, ?E3, ?L1, ?L2, ?L3; try discriminate;
      try (match goal with |- context [ws (m_slots M ?i)] => destruct (last_view _ _ (O4' i)) as (m4 & E4 & L4); rewrite ?after_last, ?E4, ?L4 end);
      repeat match goal with |- context [if ?b then _ else _] => destruct b | |- context [match ?b with _ => _ end] => destruct b end; discriminate.
  Qed.
  Lemma thread_enabled c g t x : SI c g -> wlookup t (w_run c) = Some x -> exists k, wstep E c (WStep t k) <> WDisabled.
  Proof.
    intros S Lk. pose proof (si_wi _ _ S) as W. pose proof (si_view _ _ S t) as O. simpl. unfold wstep_thread. rewrite Lk. destruct (wc_prog x) as [r|m|a kk|a again kk].
    - exists 0. discriminate.
    - exists 0. discriminate.
    - exists (newest a (w_mem c)). pose proof (exec_enabled (wc_id x) a _ _ _ W O). destruct (wexec E (wc_id x) a _ (w_mem c) (w_view c t)); [discriminate|discriminate|congruence].
    - exists (newest a (w_mem c)). pose proof (exec_enabled (wc_id x) a _ _ _ W O). destruct (wexec E (wc_id x) a _ (w_mem c) (w_view c t)) as [y| |]; [destruct (again y); discriminate|discriminate|congruence].
  Qed.
End WSound.

Section Final.
  Context {V : Type} (E : env V) (ro : bool).
  Theorem execution_SI l0 c0 m0 c : wexecution E ro l0 c0 m0 c -> env_ok E /\ exists g, SI E ro c g /\ BI E c.
  Proof.
    intros (EOK & Ck & Hl & Hw & Re). split; [assumption|]. induction Re as [|c l c' Re IH Cl St].
    - exists (g0 (length l0)). split; [apply init_SI; auto|now apply BI_init].
    - destruct IH as (g & S & B). pose proof (client_step E ro EOK c g l S B Cl) as X. now rewrite St in X.
  Qed.
  Theorem execution_safe l0 c0 m0 c l f : wexecution E ro l0 c0 m0 c -> wclient E ro c l -> wstep E c l <> WFault f.
  Proof.
    intros H Cl St. destruct (execution_SI _ _ _ _ H) as (EOK & g & S & B). pose proof (client_step E ro EOK c g l S B Cl) as X. now rewrite St in X.
  Qed.
End Final.
