(** * Histories of the view machine are possible histories, and results are explained by them. *)

From Coq Require Import List Arith Bool Lia.
From Verif.Model Require Import Prog Mem Deps State Elem Vec Excl Machine.
From Verif Require Import Client Spec Seq.
From Verif.Logic Require Import Inv WP Post Specs Ops Sound Shape Clients Hist Facts Complete Lawful Lin Trace.
From Verif.RA Require Import Weak WInv WSlots WSpecs WSound WPath WTrace.
Import ListNotations.
Local Arguments Nat.leb : simpl never.
Local Arguments Nat.ltb : simpl never.
Local Arguments Nat.eqb : simpl never.
Local Arguments Nat.add : simpl never.
Local Arguments Nat.sub : simpl never.
Local Arguments Nat.modulo : simpl never.
Local Notation latest := Weak.latest.
Local Notation stores := Weak.stores.
Local Notation before := Spec.before.

(** ** One more event *)
Section Snoc.
  Context {V : Type}.
  Implicit Types (h : list (event V)).
  Lemma lawful_nil (l0 : list V) m0 : lawful l0 m0 [].
  Proof. intros [|k] e; discriminate. Qed.
  Lemma firstn_snoc h e k : k <= length h -> firstn k (h ++ [e]) = firstn k h.
  Proof. intros H. rewrite firstn_app. replace (k - length h) with 0 by lia. simpl. apply app_nil_r. Qed.
  Lemma lawful_snoc (l0 : list V) m0 h e : lawful l0 m0 h -> well_formed h e -> legal (replay (abs0 l0 m0) h) e -> lawful l0 m0 (h ++ [e]).
  Proof.
    intros L W G k e' He. destruct (Nat.lt_ge_cases k (length h)) as [Hk|Hk].
    - rewrite nth_error_app1 in He by assumption. unfold Spec.before. rewrite firstn_snoc by lia. now apply L.
    - assert (k = length h) as ->. { pose proof (nth_lt _ _ _ He) as X. rewrite app_length in X. simpl in X. lia. }
      rewrite nth_error_app2, Nat.sub_diag in He by lia. injection He as <-. unfold Spec.before. rewrite firstn_snoc, firstn_all by lia. auto.
  Qed.
  Lemma accs_new (l0 : list V) m0 h : lawful l0 m0 h -> accs (length h) h = [].
  Proof.
    intros L. destruct (accs (length h) h) as [|x l] eqn:Q; [reflexivity|]. exfalso.
    assert (In x (accs (length h) h)) as Hx by (rewrite Q; now left). rewrite <- (firstn_all h) in Hx at 2. apply accs_firstn in Hx as (j & t & Hj & Hn).
    destruct (l_acc l0 m0 h L _ _ _ _ Hn) as (o & X & _). lia.
  Qed.
  Lemma open_snoc (l0 : list V) m0 h e id t o : lawful l0 m0 h ->
    (open (h ++ [e]) id t o <-> (open h id t o /\ is_end id e = false) \/ (id = length h /\ e = EInv id t o)).
  Proof.
    intros L. unfold open. rewrite existsb_app. simpl. rewrite orb_false_r. split.
    - intros [H1 H2]. apply orb_false_iff in H2 as [H2 H3]. apply WSound.nth_snoc in H1 as [H1|[-> H1]]; auto.
    - intros [[[H1 H2] H3]|[-> ->]].
      + split; [rewrite nth_error_app1; [assumption|eapply nth_lt; eauto]|]. now rewrite H2, H3.
      + rewrite nth_error_app2, Nat.sub_diag by lia. split; [reflexivity|]. simpl. rewrite orb_false_r.
        destruct (existsb (is_end (length h)) h) eqn:X; [|reflexivity]. apply existsb_exists in X as (e & Hin & He). apply in_nth in Hin as (k & Hk).
        destruct (l_end l0 m0 h L _ _ _ Hk He) as (? & ? & X & _). pose proof (nth_lt _ _ _ Hk). lia.
  Qed.
  Lemma epoch_same h e : is_clear e = false -> epoch (h ++ [e]) (length (h ++ [e])) = epoch h (length h).
  Proof. intros H. unfold epoch. rewrite !firstn_all, filter_app. simpl. rewrite H. now rewrite app_nil_r. Qed.
  Lemma epoch_cut h e k : k <= length h -> epoch (h ++ [e]) k = epoch h k.
  Proof. intros H. unfold epoch. now rewrite firstn_snoc. Qed.
End Snoc.

Section WHist.
  Context {V : Type} (E : env V) (ro : bool) (l0 : list V) (m0 : nat).
  Notation wmem := (wmem V).
  Notation a0 := (abs0 l0 m0).
  Implicit Types (M : wmem) (h : list (event V)) (c : wcfg V) (cur : nat -> nat).

  Record agree (a : abs V) M : Prop := MkAg {
    g_len : a_len a = latest (m_resv M);
    g_val : forall i, value a i = wv (m_slots M i);
    g_max : a_max a = m_max M
  }.
  (** what an access does *)
  Definition does M M' (l : list (acc V)) : Prop :=
    m_max M' = m_max M /\
    ((exists b n, l = [AcAdd b n] /\ b = latest (m_resv M) /\ latest (m_resv M') = (b + n) mod wmod E /\ m_slots M' = m_slots M) \/
     (latest (m_resv M') = latest (m_resv M) /\
      ((l = [] /\ forall i, wv (m_slots M' i) = wv (m_slots M i)) \/
       (exists i v, l = [AcRead i v] /\ wv (m_slots M i) = Some v /\ forall j, wv (m_slots M' j) = wv (m_slots M j)) \/
       (exists i v, l = [AcInit i v] /\ forall j, wv (m_slots M' j) = if j =? i then Some v else wv (m_slots M j)) \/
       (exists i v w, l = [AcWrite i v w] /\ wv (m_slots M i) = Some v /\ forall j, wv (m_slots M' j) = if j =? i then Some w else wv (m_slots M j)) \/
       (exists i j v w, l = [AcSwap i j v w] /\ i <> j /\ wv (m_slots M i) = Some v /\ wv (m_slots M j) = Some w /\
          forall q, wv (m_slots M' q) = if q =? j then Some v else if q =? i then Some w else wv (m_slots M q))))).
  Lemma wexec_does id (a : act V) k M tv y M' tv' g : WI E ro M g -> wexec E id a k M tv = WDone y M' tv' -> does M M' (wlog M a y).
  Proof.
    intros W. destruct (wi_ne _ _ _ _ W) as (Nr & _ & _).
    destruct a; simpl; unfold with_wslot; intros H;
      repeat match goal with
             | H : context [if ?b then _ else _] |- _ => let Q := fresh "Q" in destruct b eqn:Q
             | H : context [match ?b with _ => _ end] |- _ => let Q := fresh "Q" in destruct b eqn:Q
             end; try discriminate; try (injection H as <- <- <-; (split; [reflexivity|]); right; split; [reflexivity|]; simpl;
               first [left; split; [reflexivity|intros j; simpl; unfold upd; destruct (Nat.eqb_spec j i) as [->|]; auto; fail]
                     |left; split; [reflexivity|reflexivity]
                     |right; left; exists i; eexists; split; [reflexivity|]; split; [eassumption|]; intros j; simpl; unfold upd; destruct (Nat.eqb_spec j i) as [->|]; auto; fail
                     |right; right; left; exists i; eexists; split; [reflexivity|]; intros j; simpl; unfold upd; destruct (Nat.eqb_spec j i) as [->|]; auto; fail
                     |right; right; right; left; exists i; eexists; eexists; split; [reflexivity|]; split; [eassumption|]; intros j; simpl; unfold upd; destruct (Nat.eqb_spec j i) as [->|]; auto; fail ]).
    - injection H as <- <- <-. split; [reflexivity|]. left. exists (mval m), n. split; [reflexivity|]. unfold Weak.latest at 1. rewrite Q. split; [reflexivity|]. simpl. split; [|reflexivity].
      rewrite WInv.latest_snoc. reflexivity.
    - injection H as <- <- <-. apply andb_true_iff in Q1 as [_ Q1]. apply negb_true_iff, Nat.eqb_neq in Q1. split; [reflexivity|]. right. split; [reflexivity|]. do 4 right.
      exists i, j, v, v0. split; [reflexivity|]. split; [assumption|]. split; [assumption|]. split; [assumption|]. intros q. simpl. unfold upd. destruct (Nat.eqb_spec q j) as [->|]; [reflexivity|].
      destruct (Nat.eqb_spec q i) as [->|]; reflexivity.
    - injection H as <- <- <-. split; [reflexivity|]. right. split; [reflexivity|]. left. split; [reflexivity|]. intros i. simpl. destruct (Nat.leb_spec (capv M tv) i); simpl; [|reflexivity].
      destruct (i <? _); [|reflexivity]. apply Nat.eqb_eq in Q0. rewrite capv_last in H by assumption. destruct (wi_beyond _ _ _ _ W i H) as [e _]. unfold sl in e. now rewrite e.
  Qed.
  Lemma wexec_logs id (a : act V) k M tv y M' tv' g lo : WI E ro M g -> wexec E id a k M tv = WDone y M' tv' ->
    (forall n r, a = AddResv n r -> latest (m_resv M) + n < wmod E) -> lo <= capv M tv -> logs E lo a y (wlog M a y).
  Proof.
    intros W. destruct a; simpl; unfold with_wslot; intros H Hn Hl; try reflexivity.
    - split; [reflexivity|]. specialize (Hn _ _ eq_refl). unfold Weak.latest in Hn. destruct (nth_error (m_resv M) (last_ts (m_resv M))); [|discriminate]. injection H as <- _ _. assumption.
    - split; [reflexivity|]. destruct (nth_error (m_cap M) k) as [m|] eqn:Q; [|discriminate]. destruct (Nat.leb_spec (v_cap tv) k) as [Hk|]; [|discriminate]. injection H as <- _ _.
      unfold capv in Hl. destruct (nth_error (m_cap M) (v_cap tv)) as [m'|] eqn:Q'; [|lia]. destruct (Nat.eq_dec (v_cap tv) k) as [e|Ne]; [rewrite e in Q'; rewrite Q in Q'; injection Q' as <-; lia|].
      pose proof (wi_cap _ _ _ _ W (v_cap tv) k m' m ltac:(lia) Q' Q). lia.
    - destruct (i <? capv M tv); [|discriminate]. destruct (j <? capv M tv); [|discriminate]. destruct (may_write _ _ _ && may_write _ _ _ && negb (i =? j)) eqn:Q; [|discriminate].
      apply andb_true_iff in Q as [_ Q]. apply negb_true_iff, Nat.eqb_neq in Q. split; [assumption|].
      destruct (wv (m_slots M i)) as [v|]; [|discriminate]. destruct (wv (m_slots M j)) as [w|]; [|discriminate]. eauto.
  Qed.
  Lemma agree_does a M M' l id t : agree a M -> does M M' l -> (forall b n, l = [AcAdd b n] -> b + n < wmod E /\ forall i, b <= i -> value a i = None) ->
    match l with [] => agree a M' | x :: _ => agree (apply a (EAcc id t x)) M' end.
  Proof.
    intros [A1 A2 A3] [Dm D] Hn. destruct D as [(b & n & -> & -> & Dr & Ds)|[Dr [[-> Dv]|[(i & v & -> & Dv & Ds)|[(i & v & -> & Dv)|[(i & v & w & -> & D1 & Dv)|(i & j & v & w & -> & Dn & D1 & D2 & Dv)]]]]]].
    - destruct (Hn _ _ eq_refl) as [Hn1 Hn2]. constructor; simpl; [rewrite Dr, Nat.mod_small, A1 by assumption; reflexivity| |congruence]. intros q. rewrite Ds, <- A2.
      unfold value. simpl. destruct (in_range (latest (m_resv M)) n q) eqn:Q; [|reflexivity]. apply andb_true_iff in Q as [Q _]. apply Nat.leb_le in Q. specialize (Hn2 q Q). unfold value in Hn2. now rewrite Hn2.
    - constructor; simpl; try congruence; intros; now rewrite Dv.
    - constructor; simpl; try congruence; intros q; now rewrite Ds.
    - constructor; simpl; try congruence. intros q. rewrite Dv. unfold value. simpl. unfold upd. destruct (Nat.eqb_spec q i) as [->|]; [reflexivity|]. rewrite <- A2. reflexivity.
    - constructor; simpl; try congruence. intros q. rewrite Dv. unfold value. simpl. unfold upd. destruct (Nat.eqb_spec q i) as [->|]; [reflexivity|]. rewrite <- A2. reflexivity.
    - constructor; simpl; try congruence. intros q. rewrite Dv. unfold value. simpl. unfold upd. destruct (Nat.eqb_spec q j) as [->|]; [reflexivity|]. destruct (Nat.eqb_spec q i) as [->|]; [reflexivity|]. rewrite <- A2. reflexivity.
  Qed.

  (** ** What is known of an execution and its history *)
  Record TI c h cur : Prop := MkTI {
    ti_law : lawful l0 m0 h;
    ti_ag : agree (replay a0 h) (w_mem c);
    ti_run : forall t x, wlookup t (w_run c) = Some x -> open h (cur t) t (wc_op x) /\ floor (wc_op x) <= capv (w_mem c) (w_view c t) /\
               tw E (floor (wc_op x)) (ptrace E (wc_op x)) (ended_pan (wc_op x)) (wpost E (wc_op x)) (wc_prog x) (accs (cur t) h);
    ti_open : forall id t o, open h id t o -> exists x, wlookup t (w_run c) = Some x /\ cur t = id;
    ti_resv : forall i id, a_pos (replay a0 h) i = Reserved id -> exists t x b vs, wlookup t (w_run c) = Some x /\ cur t = id /\ grows (wc_op x) = true /\
                accs id h = AcAdd b (request (wc_op x)) :: inits b vs /\ b + length vs <= i < b + request (wc_op x);
    ti_own : forall t x b n vs, wlookup t (w_run c) = Some x -> accs (cur t) h = AcAdd b n :: inits b vs -> forall i, b + length vs <= i < b + n -> a_pos (replay a0 h) i = Reserved (cur t);
    ti_ret : forall id r o v, returned h id r o v -> wpost E o v (accs id (firstn r h));
    ti_pan : forall id r o m, panicked h id r o m -> wpan o m (accs id (firstn r h));
    ti_src : forall k id t x, nth_error h k = Some (EAcc id t x) -> exists o, called h id o /\ source o x;
    ti_rets : forall o v, (exists q, In q (w_res c) /\ r_op q = o /\ r_ret q = v) <-> exists id r, returned h id r o v /\ epoch h r = epoch h (length h);
    ti_pans : forall o m, (exists id, In (id, o, m) (w_panics c)) <-> exists id r, panicked h id r o m /\ epoch h r = epoch h (length h)
  }.

  Lemma called_snoc h e id o : called h id o -> called (h ++ [e]) id o.
  Proof. intros (t & H). exists t. rewrite nth_error_app1; [assumption|now apply nth_lt in H]. Qed.
  Lemma law_before h r id e : lawful l0 m0 h -> nth_error h r = Some e -> is_end id e = true -> id < r.
  Proof. intros L H He. destruct (l_end l0 m0 h L r id e H He) as (? & ? & X & _). exact X. Qed.
  Lemma returned_snoc h e id r o v : lawful l0 m0 (h ++ [e]) ->
    (returned (h ++ [e]) id r o v <-> returned h id r o v \/ (r = length h /\ exists t, nth_error h id = Some (EInv id t o) /\ e = ERet id t v)).
  Proof.
    intros L. split.
    - intros (t & H1 & H2). assert (id < r) as Hi by (eapply law_before; [exact L|exact H2|simpl; apply Nat.eqb_refl]).
      pose proof (nth_lt _ _ _ H2) as X. rewrite app_length in X. simpl in X. rewrite nth_error_app1 in H1 by lia.
      apply WSound.nth_snoc in H2 as [H2|[-> H2]]; [left; exists t; auto|right; split; [reflexivity|exists t; auto]].
    - intros [(t & H1 & H2)|(-> & t & H1 & ->)]; exists t.
      + rewrite !nth_error_app1; [auto|eapply nth_lt; eauto|eapply nth_lt; eauto].
      + rewrite nth_error_app1 by (eapply nth_lt; eauto). rewrite nth_error_app2, Nat.sub_diag by lia. auto.
  Qed.
  Lemma panicked_snoc h e id r o v : lawful l0 m0 (h ++ [e]) ->
    (panicked (h ++ [e]) id r o v <-> panicked h id r o v \/ (r = length h /\ exists t, nth_error h id = Some (EInv id t o) /\ e = EPan id t v)).
  Proof.
    intros L. split.
    - intros (t & H1 & H2). assert (id < r) as Hi by (eapply law_before; [exact L|exact H2|simpl; apply Nat.eqb_refl]).
      pose proof (nth_lt _ _ _ H2) as X. rewrite app_length in X. simpl in X. rewrite nth_error_app1 in H1 by lia.
      apply WSound.nth_snoc in H2 as [H2|[-> H2]]; [left; exists t; auto|right; split; [reflexivity|exists t; auto]].
    - intros [(t & H1 & H2)|(-> & t & H1 & ->)]; exists t.
      + rewrite !nth_error_app1; [auto|eapply nth_lt; eauto|eapply nth_lt; eauto].
      + rewrite nth_error_app1 by (eapply nth_lt; eauto). rewrite nth_error_app2, Nat.sub_diag by lia. auto.
  Qed.
  Lemma returned_le h id r o v : returned h id r o v -> r < length h.
  Proof. intros (t & _ & H). eapply nth_lt; eauto. Qed.
  Lemma panicked_le h id r o v : panicked h id r o v -> r < length h.
  Proof. intros (t & _ & H). eapply nth_lt; eauto. Qed.

  (** the parts about ended calls, when an event that ends no call is added *)
  Definition is_done (e : event V) : bool := match e with ERet _ _ _ | EPan _ _ _ => true | _ => false end.
  Lemma rets_snoc h e : lawful l0 m0 (h ++ [e]) -> is_done e = false -> is_clear e = false ->
    (forall o v, (exists id r, returned h id r o v /\ epoch h r = epoch h (length h)) <-> exists id r, returned (h ++ [e]) id r o v /\ epoch (h ++ [e]) r = epoch (h ++ [e]) (length (h ++ [e]))) /\
    (forall o v, (exists id r, panicked h id r o v /\ epoch h r = epoch h (length h)) <-> exists id r, panicked (h ++ [e]) id r o v /\ epoch (h ++ [e]) r = epoch (h ++ [e]) (length (h ++ [e]))).
  Proof.
    intros L D C. split; intros o v; (split; intros (id & r & H1 & H2); exists id, r).
    - split; [apply returned_snoc; auto|]. rewrite epoch_same, epoch_cut by (auto; apply returned_le in H1; lia). assumption.
    - apply returned_snoc in H1 as [H1|(_ & t & _ & ->)]; [|discriminate|assumption]. split; [assumption|]. rewrite epoch_same, epoch_cut in H2 by (auto; apply returned_le in H1; lia). assumption.
    - split; [apply panicked_snoc; auto|]. rewrite epoch_same, epoch_cut by (auto; apply panicked_le in H1; lia). assumption.
    - apply panicked_snoc in H1 as [H1|(_ & t & _ & ->)]; [|discriminate|assumption]. split; [assumption|]. rewrite epoch_same, epoch_cut in H2 by (auto; apply panicked_le in H1; lia). assumption.
  Qed.
  Lemma ret_snoc h e : lawful l0 m0 (h ++ [e]) -> is_done e = false -> (forall id r o v, returned h id r o v -> wpost E o v (accs id (firstn r h))) ->
    forall id r o v, returned (h ++ [e]) id r o v -> wpost E o v (accs id (firstn r (h ++ [e]))).
  Proof.
    intros L D H id r o v R. apply returned_snoc in R as [R|(_ & t & _ & ->)]; [|discriminate|assumption]. rewrite firstn_snoc by (apply returned_le in R; lia). auto.
  Qed.
  Lemma pan_snoc h e : lawful l0 m0 (h ++ [e]) -> is_done e = false -> (forall id r o v, panicked h id r o v -> wpan o v (accs id (firstn r h))) ->
    forall id r o v, panicked (h ++ [e]) id r o v -> wpan o v (accs id (firstn r (h ++ [e]))).
  Proof.
    intros L D H id r o v R. apply panicked_snoc in R as [R|(_ & t & _ & ->)]; [|discriminate|assumption]. rewrite firstn_snoc by (apply panicked_le in R; lia). auto.
  Qed.
  Lemma src_snoc h e : (forall k id t x, nth_error h k = Some (EAcc id t x) -> exists o, called h id o /\ source o x) ->
    (forall id t x, e = EAcc id t x -> exists o, called h id o /\ source o x) ->
    forall k id t x, nth_error (h ++ [e]) k = Some (EAcc id t x) -> exists o, called (h ++ [e]) id o /\ source o x.
  Proof.
    intros H He k id t x Hk. assert (exists o, called h id o /\ source o x) as (o & A & B) by (apply WSound.nth_snoc in Hk as [Hk|[_ Hk]]; [eauto|symmetry in Hk; eauto]).
    exists o. split; [now apply called_snoc|assumption].
  Qed.

  (** ** Growth calls *)
  Lemma inits_length b (vs : list V) : length (inits b vs) = length vs.
  Proof. revert b. induction vs as [|v vs IH]; intros b; simpl; auto. Qed.
  Lemma snoc_inits (tr : list (acc V)) x b n vs : tr ++ [x] = AcAdd b n :: inits b vs ->
    (tr = [] /\ x = AcAdd b n /\ vs = []) \/ exists vs0 v, vs = vs0 ++ [v] /\ tr = AcAdd b n :: inits b vs0 /\ x = AcInit (b + length vs0) v.
  Proof.
    intros H. destruct vs as [|v vs _] using rev_ind.
    - left. destruct tr as [|y tr]; simpl in H; [injection H as ->; auto|]. injection H as _ H. destruct tr; discriminate.
    - right. exists vs, v. split; [reflexivity|]. rewrite inits_snoc in H. change (AcAdd b n :: inits b vs ++ [AcInit (b + length vs) v]) with ((AcAdd b n :: inits b vs) ++ [AcInit (b + length vs) v]) in H.
      apply app_inj_tail in H as [-> ->]. auto.
  Qed.
  Lemma gtrace_snoc o (tr : list (acc V)) x : gtrace E o (tr ++ [x]) ->
    (tr = [] /\ exists b, x = AcAdd b (request o)) \/
    exists b vs v, tr = AcAdd b (request o) :: inits b vs /\ x = AcInit (b + length vs) v /\ length vs < request o /\ stores o b (length vs) v.
  Proof.
    intros [H|(b & vs & H & Hl & Hg & _)]; [destruct tr; discriminate|]. apply snoc_inits in H as [(-> & -> & _)|(vs0 & v & -> & -> & ->)]; [eauto|]. right.
    rewrite app_length in Hl. simpl in Hl. exists b, vs0, v. split; [reflexivity|]. split; [reflexivity|]. split; [lia|]. apply Hg. rewrite nth_error_app2, Nat.sub_diag by lia. reflexivity.
  Qed.
  Lemma stores_offers o b j (v : V) : j < request o -> stores o b j v -> offers o v.
  Proof.
    assert (K : forall n it, j < n -> nth_error it j = Some (Some v) -> In (Some v) (firstn n it)) by (intros n it Hj Hn; eapply nth_error_In; rewrite nth_firstn by exact Hj; exact Hn).
    destruct o; simpl; try tauto; eauto. intros Hj (it & Hf & Hn). eauto 6.
  Qed.
  Lemma offers_grows o (v : V) : offers o v -> grows o = true.
  Proof. destruct o; simpl; tauto. Qed.
  Lemma wlog_source o M (a : act V) y x : act_ok (touches o) (makes o) a -> In x (wlog M a y) -> source' o x.
  Proof.
    destruct a; simpl; try tauto; intros Ok.
    - intros [<-|[]]. simpl. destruct Ok; auto.
    - intros [<-|[]]. simpl. apply Ok.
    - destruct (wv (m_slots M i)), (wv (m_slots M j)); simpl; try tauto. intros [<-|[]]. exact Ok.
    - intros [<-|[]]. exact I.
  Qed.
  Lemma wlog_add M (a : act V) y b n : In (AcAdd b n) (wlog M a y) -> exists r, a = AddResv n r.
  Proof. destruct a; simpl; try tauto; try (intros [?|[]]; discriminate); [intros [[= <- <-]|[]]; eauto|]. destruct (wv (m_slots M i)), (wv (m_slots M j)); simpl; try tauto. intros [?|[]]; discriminate. Qed.
  Lemma wlog_init M (a : act V) y i v : In (AcInit i v) (wlog M a y) -> a = InitEnd i v.
  Proof. destruct a; simpl; try tauto; try (intros [?|[]]; discriminate); [|intros [[= <- <-]|[]]; reflexivity]. destruct (wv (m_slots M i0)), (wv (m_slots M j)); simpl; try tauto. intros [?|[]]; discriminate. Qed.
  (** the phase of a call fixes what its accesses can be *)
  Lemma phase_source x (a : act V) kk M y z : phase E x -> (wc_prog x = Act a kk \/ (exists ag, wc_prog x = Spin a ag kk)) ->
    In z (wlog M a y) -> source' (wc_op x) z /\ (forall b n, z = AcAdd b n -> grows (wc_op x) = true) /\ (forall i v, z = AcInit i v -> grows (wc_op x) = true).
  Proof.
    intros [[Gr Hx]|Tl] Hp Hz.
    - split; [|auto]. destruct (grow_shape E (wc_op x) Gr) as (k' & Hk & _). rewrite Hk in Hx. destruct Hp as [Hp|(ag & Hp)]; rewrite Hp in Hx; [|discriminate].
      assert (a = AddResv (request (wc_op x)) Relaxed) by congruence. subst a. destruct Hz as [<-|[]]. simpl. auto.
    - assert (Ok : act_ok (touches (wc_op x)) (makes (wc_op x)) a) by (unfold tail in Tl; destruct Hp as [Hp|(ag & Hp)]; rewrite Hp in Tl; apply Tl).
      split; [eapply wlog_source; eauto|]. split; intros; subst z.
      + apply wlog_add in Hz as (r & ->). destruct Ok.
      + apply wlog_init in Hz as ->. simpl in Ok. eapply offers_grows; eauto.
  Qed.

  (** ** The accesses of running calls *)
  Lemma cur_inj c h cur t u x y : TI c h cur -> wlookup t (w_run c) = Some x -> wlookup u (w_run c) = Some y -> cur t = cur u -> t = u.
  Proof.
    intros T Ht Hu e. destruct (ti_run _ _ _ T t x Ht) as ([O1 _] & _). destruct (ti_run _ _ _ T u y Hu) as ([O2 _] & _). rewrite e in O1. rewrite O1 in O2. congruence.
  Qed.
  Lemma accs_one id t (x : acc V) h id' : accs id' (h ++ [EAcc id t x]) = if id =? id' then accs id' h ++ [x] else accs id' h.
  Proof. rewrite accs_app. unfold accs at 2. simpl. destruct (id =? id'); [reflexivity|apply app_nil_r]. Qed.

  Lemma TI_access c c' g g' h cur t x a kk k y M' tv' :
    TI c h cur -> SI E ro c g -> BI E c -> SI E ro c' g' -> wlookup t (w_run c) = Some x ->
    (wc_prog x = Act a kk \/ (exists ag, wc_prog x = Spin a ag kk /\ ag y = false)) -> wexec E (wc_id x) a k (w_mem c) (w_view c t) = WDone y M' tv' ->
    c' = wafter t c x (kk y) M' tv' -> (forall u, capv (w_mem c) (w_view c u) <= capv (w_mem c') (w_view c' u)) ->
    TI c' (h ++ map (EAcc (cur t) t) (wlog (w_mem c) a y)) cur.
  Proof.
    intros T S B S' Lk Hp Ex -> Cv. pose proof (ti_law _ _ _ T) as L. pose proof (si_wi _ _ _ _ S) as W. pose proof (ti_ag _ _ _ T) as Ag.
    destruct (ti_run _ _ _ T t x Lk) as (Op & Fl & Tw). pose proof (wexec_does _ _ _ _ _ _ _ _ _ W Ex) as Ds. pose proof (si_ni _ _ _ _ S) as Ni.
    assert (Wr : forall n r, a = AddResv n r -> latest (m_resv (w_mem c)) + n < wmod E).
    { intros n r e. pose proof (pends_rem t _ _ Lk) as Hs. pose proof (b_le _ _ B). pose proof (b_wm _ _ B). unfold pend in Hs. subst a.
      pose proof (b_ph _ _ B t x Lk) as Ph. destruct Hp as [Hp|(ag & Hp & _)]; rewrite Hp in Hs; [lia|]. exfalso. destruct Ph as [[Gr Hx]|Tl].
      - destruct (grow_shape E (wc_op x) Gr) as (k' & Hk & _). congruence.
      - unfold tail in Tl. rewrite Hp in Tl. destruct Tl as [[] _]. }
    pose proof (wexec_logs _ _ _ _ _ _ _ _ _ _ W Ex Wr Fl) as Lg.
    assert (Tw' : tw E (floor (wc_op x)) (ptrace E (wc_op x)) (ended_pan (wc_op x)) (wpost E (wc_op x)) (kk y) (accs (cur t) h ++ wlog (w_mem c) a y)).
    { destruct Hp as [Hp|(ag & Hp & Hag)]; rewrite Hp in Tw; simpl in Tw; destruct Tw as [_ Tw]; [exact (Tw y _ Lg)|exact (Tw y _ Lg Hag)]. }
    clear Tw. set (c' := wafter t c x (kk y) M' tv') in *.
    assert (Hp' : wc_prog x = Act a kk \/ (exists ag, wc_prog x = Spin a ag kk)) by (destruct Hp as [Hp|(ag & Hp & _)]; eauto).
    assert (Look : forall u z, wlookup u (w_run c') = Some z -> (u = t /\ z = WCall (wc_id x) (wc_op x) (wc_from x) (kk y)) \/ (u <> t /\ wlookup u (w_run c) = Some z)).
    { intros u z Hz. apply put_look in Hz; [assumption|apply Ni]. }
    assert (Keep : forall u z, wlookup u (w_run c) = Some z -> exists z', wlookup u (w_run c') = Some z' /\ wc_op z' = wc_op z).
    { intros u z Hz. unfold c'. simpl. destruct (Nat.eqb_spec u t) as [->|Ne]; [eexists; split; [reflexivity|]; simpl; congruence|]. rewrite wlook_other by assumption. eauto. }
    destruct (wlog (w_mem c) a y) as [|z l] eqn:Wl.
    - (* no event *)
      rewrite app_nil_r. rewrite app_nil_r in Tw'. constructor; try apply T.
      + pose proof (agree_does _ _ _ _ (cur t) t Ag Ds) as X. simpl in X. apply X. intros; discriminate.
      + intros u z Hz. destruct (Look u z Hz) as [[-> ->]|[Ne Hz']].
        * split; [assumption|]. split; [|assumption]. etransitivity; [exact Fl|apply Cv].
        * destruct (ti_run _ _ _ T u z Hz') as (A & B' & C). split; [assumption|]. split; [|assumption]. etransitivity; [exact B'|apply Cv].
      + intros id u o O. destruct (ti_open _ _ _ T id u o O) as (z & Hz & e). destruct (Keep u z Hz) as (z' & Hz' & _). eauto.
      + intros i id Hi. destruct (ti_resv _ _ _ T i id Hi) as (u & z & b & vs & A1 & A2 & A3 & A4 & A5). destruct (Keep u z A1) as (z' & Hz' & e). exists u, z', b, vs. rewrite e. auto.
      + intros u z b n vs Hz. destruct (Look u z Hz) as [[-> _]|[Ne Hz']]; eapply (ti_own _ _ _ T); eauto.
    - (* one event *)
      assert (l = []) as ->. { destruct Ds as [_ [(? & ? & e & _)|[_ [[e _]|[(? & ? & e & _)|[(? & ? & e & _)|[(? & ? & ? & e & _)|(? & ? & ? & ? & e & _)]]]]]]]; try discriminate; now injection e. }
      cbn [map]. set (e := EAcc (cur t) t z). assert (Inz : In z (wlog (w_mem c) a y)) by (rewrite Wl; now left).
      destruct (phase_source x a kk _ y z (b_ph _ _ B t x Lk) Hp' Inz) as (Src & GrA & GrI).
      pose proof (tw_P _ _ _ _ _ _ _ Tw') as Pt. unfold ptrace in Pt.
      assert (Beyond : forall i, a_len (replay a0 h) <= i -> a_pos (replay a0 h) i = Unreserved).
      { intros i Hi. pose proof (l_beyond l0 m0 h L (length h) i (le_n _)) as X. rewrite before_all in X by lia. auto. }
      assert (Has : forall i v, wv (m_slots (w_mem c) i) = Some v -> a_pos (replay a0 h) i = Has v).
      { intros i v Hv. rewrite <- (g_val _ _ Ag) in Hv. unfold value in Hv. destruct (a_pos (replay a0 h) i); try discriminate. simpl in Hv. congruence. }
      assert (Leg : legal (replay a0 h) e).
      { simpl. destruct Ds as [_ [(b & n & [= ->] & -> & _)|[_ [[Q _]|[(i & v & [= ->] & D1 & _)|[(i & v & [= ->] & _)|[(i & v & w & [= ->] & D1 & _)|(i & j & v & w & [= ->] & D0 & D1 & D2 & _)]]]]]]]; try discriminate; auto.
        - apply Ag.
        - specialize (Pt (GrI _ _ eq_refl)). apply gtrace_snoc in Pt as [(_ & b & Q)|(b & vs & v' & Q & [= -> <-] & Hl & _)]; [discriminate|].
          apply (ti_own _ _ _ T t x b (request (wc_op x)) vs Lk Q). lia. }
      assert (L' : lawful l0 m0 (h ++ [e])) by (apply lawful_snoc; auto; simpl; eauto).
      assert (Rp : replay a0 (h ++ [e]) = apply (replay a0 h) e) by apply replay_snoc.
      assert (Op' : forall id u o, open (h ++ [e]) id u o <-> open h id u o).
      { intros id u o. rewrite (open_snoc l0 m0 h e id u o L). simpl. split; [intros [[X _]|[_ X]]; [assumption|discriminate]|auto]. }
      destruct (rets_snoc h e L' eq_refl eq_refl) as [Rs Ps].
      constructor; auto.
      + rewrite Rp. pose proof (agree_does _ _ _ _ (cur t) t Ag Ds) as X. simpl in X. apply X. intros b n [= Q]. split.
        * destruct (wlog_add _ _ _ _ _ ltac:(rewrite <- Q; exact Inz)) as (r & Ha). pose proof (Wr _ _ Ha) as Y. simpl in Leg. rewrite Q in Leg. rewrite (g_len _ _ Ag) in Leg. lia.
        * intros i Hi. unfold value. simpl in Leg. rewrite Q in Leg. rewrite Beyond by lia. reflexivity.
      + intros u w Hw. unfold e. rewrite accs_one. destruct (Look u w Hw) as [[-> ->]|[Ne Hw']].
        * rewrite Nat.eqb_refl. split; [apply Op'; assumption|]. split; [|assumption]. etransitivity; [exact Fl|apply Cv].
        * destruct (ti_run _ _ _ T u w Hw') as (A & B' & C). split; [apply Op'; assumption|]. split; [etransitivity; [exact B'|apply Cv]|].
          destruct (Nat.eqb_spec (cur t) (cur u)) as [q|_]; [|assumption]. exfalso. apply Ne. symmetry. eapply cur_inj; eauto.
      + intros id u o O. apply Op' in O. destruct (ti_open _ _ _ T id u o O) as (w & Hw & q). destruct (Keep u w Hw) as (w' & Hw' & _). eauto.
      + (* reserved positions *)
        intros i id Hi. rewrite Rp in Hi.
        assert (Old : a_pos (replay a0 h) i = Reserved id -> (id = cur t -> grows (wc_op x) = true -> forall b vs, accs id h = AcAdd b (request (wc_op x)) :: inits b vs -> b + length vs <= i < b + request (wc_op x) ->
                  exists b' vs', accs id h ++ [z] = AcAdd b' (request (wc_op x)) :: inits b' vs' /\ b' + length vs' <= i < b' + request (wc_op x)) ->
                exists u w b vs, wlookup u (w_run c') = Some w /\ cur u = id /\ grows (wc_op w) = true /\ accs id (h ++ [e]) = AcAdd b (request (wc_op w)) :: inits b vs /\ b + length vs <= i < b + request (wc_op w)).
        { intros Ho Hc. destruct (ti_resv _ _ _ T i id Ho) as (u & w & b & vs & A1 & A2 & A3 & A4 & A5). destruct (Keep u w A1) as (w' & Hw' & q). exists u, w'. rewrite q.
          unfold e. rewrite accs_one. destruct (Nat.eqb_spec (cur t) id) as [Q|Q].
          - assert (u = t) as -> by (eapply cur_inj; eauto; congruence). rewrite Lk in A1. injection A1 as <-. destruct (Hc (eq_sym Q) A3 b vs A4 A5) as (b' & vs' & X & Y). exists b', vs'. auto.
          - exists b, vs. auto. }
        assert (Oth : (forall b n, z <> AcAdd b n) -> (forall j v, z <> AcInit j v) -> grows (wc_op x) = false).
        { intros N1 N2. destruct (grows (wc_op x)) eqn:Gr; [|reflexivity]. specialize (Pt eq_refl). apply gtrace_snoc in Pt as [(_ & b & Q)|(b & vs & v' & _ & Q & _)]; [now apply N1 in Q|now apply N2 in Q]. }
        destruct z as [b n|j v|j v|j old v|j1 j2 v w|j s|n|n]; simpl in Hi; try (apply Old; [assumption|]; intros _ Gr; rewrite Oth in Gr by discriminate; discriminate).
        * pose proof (GrA _ _ eq_refl) as Gr. specialize (Pt Gr). apply gtrace_snoc in Pt as [(Q & b' & [= -> ->])|(? & ? & ? & _ & Q & _)]; [|discriminate].
          destruct (in_range b' (request (wc_op x)) i) eqn:R.
          -- injection Hi as <-. apply andb_true_iff in R as [R1 R2]. apply Nat.leb_le in R1. apply Nat.ltb_lt in R2. destruct (Keep t x Lk) as (x' & Hx' & q). exists t, x', b', []. rewrite q.
             unfold e. rewrite accs_one, Nat.eqb_refl, Q. simpl. repeat split; auto; lia.
          -- apply Old; [assumption|]. intros -> _ b0 vs Q'. rewrite Q in Q'. discriminate.
        * pose proof (GrI _ _ eq_refl) as Gr. specialize (Pt Gr). apply gtrace_snoc in Pt as [(Q & b' & ?)|(b & vs & v' & Q & [= -> <-] & Hl & _)]; [discriminate|].
          unfold upd in Hi. destruct (Nat.eqb_spec i (b + length vs)) as [|Ni']; [discriminate|]. apply Old; [assumption|]. intros -> _ b0 vs0 Q' Hr.
          rewrite Q in Q'. injection Q' as <- Q'. assert (length vs0 = length vs) as Hlen by (apply (f_equal (@length _)) in Q'; now rewrite !inits_length in Q').
          exists b, (vs ++ [v]). rewrite Q, inits_snoc, app_length. simpl. split; [reflexivity|lia].
        * unfold upd in Hi. destruct (i =? j); [discriminate|]. apply Old; [assumption|]. intros _ Gr. rewrite Oth in Gr by discriminate. discriminate.
        * unfold upd in Hi. destruct (i =? j2); [discriminate|]. destruct (i =? j1); [discriminate|]. apply Old; [assumption|]. intros _ Gr. rewrite Oth in Gr by discriminate. discriminate.
      + (* positions of running calls *)
        intros u w b n vs Hw Ha i Hi. rewrite Rp. unfold e in Ha. rewrite accs_one in Ha.
        destruct (Look u w Hw) as [[-> ->]|[Ne Hw']].
        * rewrite Nat.eqb_refl in Ha. apply snoc_inits in Ha as [(Q & -> & ->)|(vs0 & v & -> & Q & ->)].
          -- simpl. unfold in_range. simpl in Hi. destruct (Nat.leb_spec b i); [|lia]. destruct (Nat.ltb_spec i (b + n)); [|lia]. reflexivity.
          -- rewrite app_length in Hi. simpl in Hi. simpl. unfold upd. destruct (Nat.eqb_spec i (b + length vs0)); [lia|]. apply (ti_own _ _ _ T t x b n vs0 Lk Q). lia.
        * destruct (Nat.eqb_spec (cur t) (cur u)) as [q|Nq]; [exfalso; apply Ne; symmetry; eapply cur_inj; eauto|].
          pose proof (ti_own _ _ _ T u w b n vs Hw' Ha i Hi) as Ho. clear - Ho Leg Nq Beyond.
          destruct z as [b' n'|j v|j v|j old v|j1 j2 v w|j s|n'|n']; simpl in *; auto.
          -- unfold in_range. destruct (Nat.leb_spec b' i); simpl; [|assumption]. rewrite Beyond in Ho by lia. discriminate.
          -- unfold upd. destruct (Nat.eqb_spec i j) as [->|]; [congruence|assumption].
          -- unfold upd. destruct (Nat.eqb_spec i j) as [->|]; [congruence|assumption].
          -- destruct Leg as (_ & G1 & G2). unfold upd. destruct (Nat.eqb_spec i j2) as [->|]; [congruence|]. destruct (Nat.eqb_spec i j1) as [->|]; [congruence|assumption].
      + apply ret_snoc; auto. apply T.
      + apply pan_snoc; auto. apply T.
      + apply src_snoc; [apply T|]. intros id u z' [= <- <- <-]. exists (wc_op x). split; [exists t; apply Op|].
        destruct z as [b n|j v|j v|j old v|j1 j2 v w|j s|n|n]; auto. pose proof (GrI _ _ eq_refl) as Gr. specialize (Pt Gr).
        apply gtrace_snoc in Pt as [(Q & b' & ?)|(b & vs & v' & Q & [= -> <-] & Hl & St)]; [discriminate|]. simpl. eapply stores_offers; eauto.
      + intros o v. rewrite <- Rs. apply T.
      + intros o v. rewrite <- Ps. apply T.
  Qed.

  (** ** The other steps *)
  Lemma TI_inv c c' g g' h cur t o from : TI c h cur -> SI E ro c g -> BI E c -> SI E ro c' g' -> wstep E c (WInv t o from) = WNext c' ->
    (forall u, capv (w_mem c) (w_view c u) <= capv (w_mem c') (w_view c' u)) -> TI c' (h ++ [EInv (length h) t o]) (upd cur t (length h)).
  Proof.
    intros T S B S' St Cv. pose proof (ti_law _ _ _ T) as L. simpl in St. destruct (wlookup t (w_run c)) eqn:Lk; [discriminate|]. destruct (fetch o from (w_res c)) as [v|] eqn:Fe; [|discriminate].
    set (e := EInv (length h) t o).
    assert (Fl : floor o <= capv (w_mem c) (vjoin (w_view c t) v)).
    { destruct o; simpl; try lia. unfold fetch in Fe. simpl in Fe. destruct (nth_error (w_res c) from) as [q|] eqn:Q; [|discriminate].
      destruct (existsb (grant_eqb (GSlice x)) (grants (r_ret q))) eqn:Ex; [|discriminate]. injection Fe as <-. apply existsb_exists in Ex as (z & Hz & He). apply grant_eq in He as <-.
      destruct (si_res _ _ _ _ S q (nth_error_In _ _ Q)) as (A & A' & C & D & _). specialize (D _ Hz). simpl in D. destruct D as [D _]. etransitivity; [exact D|].
      apply (capv_mono E ro); [exists g; apply S|simpl; lia|]. destruct A' as (_ & _ & X & _). destruct (si_view _ _ _ _ S t) as (_ & _ & Y & _). simpl. lia. }
    injection St as <-.
    assert (Wf : well_formed h e).
    { split; [reflexivity|]. intros id o' O. destruct (ti_open _ _ _ T _ _ _ O) as (x & Hx & _). congruence. }
    assert (L' : lawful l0 m0 (h ++ [e])) by (apply lawful_snoc; simpl; auto).
    assert (Rp : replay a0 (h ++ [e]) = replay a0 h) by (rewrite replay_snoc; reflexivity).
    assert (Ac : forall id, accs id (h ++ [e]) = accs id h) by (intros id; rewrite accs_app; apply app_nil_r).
    assert (Cu : forall u, u <> t -> upd cur t (length h) u = cur u) by (intros u Hu; unfold upd; destruct (Nat.eqb_spec u t); congruence).
    assert (Ct : upd cur t (length h) t = length h) by (unfold upd; now rewrite Nat.eqb_refl).
    destruct (rets_snoc h e L' eq_refl eq_refl) as [Rs Ps].
    constructor; simpl w_run; simpl w_mem; simpl w_view; simpl w_res; simpl w_panics; auto.
    - rewrite Rp. apply T.
    - intros u x Hx. simpl in Hx. destruct (Nat.eqb_spec u t) as [->|Ne].
      + injection Hx as <-. simpl. rewrite Ct. split; [apply (open_snoc l0 m0 h e _ _ _ L); auto|]. unfold upd at 1. rewrite Nat.eqb_refl. split; [assumption|].
        rewrite Ac, (accs_new l0 m0 h L). apply op_paths.
      + rewrite Cu by assumption. destruct (ti_run _ _ _ T u x Hx) as (A1 & A2 & A3). split; [apply (open_snoc l0 m0 h e _ _ _ L); auto|]. unfold upd at 1. destruct (Nat.eqb_spec u t); [congruence|].
        split; [assumption|]. rewrite Ac. assumption.
    - intros id u o' O. apply (open_snoc l0 m0 h e _ _ _ L) in O as [[O _]|[-> [= <- <-]]].
      + destruct (ti_open _ _ _ T _ _ _ O) as (x & Hx & Q). assert (u <> t) by congruence. rewrite Cu by assumption. simpl. destruct (Nat.eqb_spec u t); [congruence|]. eauto.
      + simpl. rewrite Nat.eqb_refl. eauto.
    - rewrite Rp. intros i id Hi. destruct (ti_resv _ _ _ T i id Hi) as (u & x & b & vs & A1 & A2 & A3 & A4 & A5). assert (u <> t) by congruence. exists u, x, b, vs. rewrite Cu by assumption. simpl.
      destruct (Nat.eqb_spec u t); [congruence|]. rewrite Ac. auto.
    - rewrite Rp. intros u x b n vs Hx. rewrite Ac. simpl in Hx. destruct (Nat.eqb_spec u t) as [->|Ne].
      + rewrite Ct, (accs_new l0 m0 h L). discriminate.
      + rewrite Cu by assumption. intros Ha i Hi; exact (ti_own _ _ _ T u x b n vs Hx Ha i Hi).
    - apply ret_snoc; auto. apply T.
    - apply pan_snoc; auto. apply T.
    - apply src_snoc; [apply T|discriminate].
    - intros o' w. rewrite <- Rs. apply T.
    - intros o' w. rewrite <- Ps. apply T.
  Qed.

  (** growth calls that return stored all their values *)
  Lemma wpost_full o r b n (vs : list V) : grows o = true -> wpost E o r (AcAdd b n :: inits b vs) -> length vs = request o.
  Proof.
    intros Gr P. assert (K : forall n' vs' b', grow_post n' vs' b' r (AcAdd b n :: inits b vs) -> length vs = n').
    { intros n' vs' b' (_ & Hl & He). rewrite eff_add in He. injection He as _ _ He. apply (f_equal (@length _)) in He. rewrite !inits_length in He. congruence. }
    destruct o; try discriminate; simpl in *.
    - destruct P as (b' & P). eauto.
    - destruct P as (b' & w & _ & P). eauto.
    - destruct P as (b' & vs' & _ & P). eauto.
    - destruct P as (b' & it & vs' & _ & _ & P). eauto.
    - destruct P as (b' & vs' & _ & P). eauto.
  Qed.

  Definition ends t id (x : wcall V) (e : event V) : Prop :=
    (exists r, wc_prog x = Ret r /\ e = ERet id t r) \/ (exists m, wc_prog x = Pan m /\ e = EPan id t m).
  Lemma TI_end c g g' h cur t x e res pan : TI c h cur -> SI E ro c g -> wlookup t (w_run c) = Some x -> ends t (cur t) x e ->
    let c' := WCfg (w_mem c) (w_view c) (wremove t (w_run c)) (w_next c) res pan (w_req c) in
    SI E ro c' g' ->
    match e with
    | ERet _ _ r => (exists q, res = w_res c ++ [q] /\ r_op q = wc_op x /\ r_ret q = r) /\ pan = w_panics c
    | EPan _ _ m => res = w_res c /\ pan = w_panics c ++ [(wc_id x, wc_op x, m)]
    | _ => False
    end -> TI c' (h ++ [e]) cur.
  Proof.
    intros T S Lk He c' S' Hr. pose proof (ti_law _ _ _ T) as L. destruct (ti_run _ _ _ T t x Lk) as (Op & Fl & Tw). pose proof (si_ni _ _ _ _ S) as Ni.
    assert (Ei : forall id, is_end id e = (cur t =? id)) by (intros id; destruct He as [(r & _ & ->)|(m & _ & ->)]; reflexivity).
    assert (Nm : match e with EPan _ _ m => wpan (wc_op x) m (accs (cur t) h) | ERet _ _ r => wpost E (wc_op x) r (accs (cur t) h) | _ => False end).
    { destruct He as [(r & Hx & ->)|(m & Hx & ->)]; rewrite Hx in Tw; simpl in Tw; destruct Tw as [_ Tw]; [assumption|]. destruct Tw as [Tw|Tw]; [|assumption]. exfalso.
      destruct Hr as [_ ->]. apply (proj1 (si_pan _ _ _ _ S' (wc_id x) (wc_op x) m ltac:(simpl; apply in_or_app; right; now left))); assumption. }

    assert (Wf : well_formed h e) by (destruct He as [(r & _ & ->)|(m & _ & ->)]; simpl; eauto).
    assert (Lg : legal (replay a0 h) e).
    { destruct He as [(r & _ & ->)|(m & _ & ->)]; simpl; [|exact I]. intros i Hi. destruct (ti_resv _ _ _ T i _ Hi) as (u & y & b & vs & A1 & A2 & A3 & A4 & A5).
      assert (u = t) as -> by (eapply cur_inj; eauto). rewrite Lk in A1. injection A1 as <-. rewrite A4 in Nm. apply wpost_full in Nm; [|assumption]. lia. }
    assert (L' : lawful l0 m0 (h ++ [e])) by (apply lawful_snoc; auto).
    assert (Rp : replay a0 (h ++ [e]) = apply (replay a0 h) e) by apply replay_snoc.
    assert (Po : forall i, a_pos (replay a0 (h ++ [e])) i = a_pos (replay a0 h) i \/ (a_pos (replay a0 h) i = Reserved (cur t) /\ a_pos (replay a0 (h ++ [e])) i = Abandoned)).
    { intros i. rewrite Rp. destruct He as [(r & _ & ->)|(m & _ & ->)]; simpl; [now left|]. destruct (a_pos (replay a0 h) i) as [|j| |] eqn:Q; auto. destruct (Nat.eqb_spec j (cur t)) as [->|]; auto. }
    assert (Pe : forall i, a_pos (replay a0 (h ++ [e])) i <> Reserved (cur t)).
    { intros i. rewrite Rp. destruct He as [(r & _ & ->)|(m & _ & ->)]; simpl; [apply Lg|]. destruct (a_pos (replay a0 h) i) as [|j| |] eqn:Q; try discriminate. destruct (Nat.eqb_spec j (cur t)); congruence. }
    assert (Ac : forall id, accs id (h ++ [e]) = accs id h) by (intros id; rewrite accs_app; destruct He as [(r & _ & ->)|(m & _ & ->)]; apply app_nil_r).
    assert (Look : forall u z, wlookup u (w_run c') = Some z -> u <> t /\ wlookup u (w_run c) = Some z) by (intros u z Hz; apply rem_look in Hz; [assumption|apply Ni]).
    assert (Ec : is_clear e = false) by (destruct He as [(r & _ & ->)|(m & _ & ->)]; reflexivity).
    constructor; auto.
    - destruct (ti_ag _ _ _ T) as [A1 A2 A3]. rewrite Rp. constructor; simpl w_mem; [| |rewrite <- A3].
      + rewrite <- A1. destruct He as [(r & _ & ->)|(m & _ & ->)]; reflexivity.
      + intros i. rewrite <- A2. unfold value. destruct (Po i) as [Q|[Q Q']]; rewrite <- Rp; [now rewrite Q|now rewrite Q, Q'].
      + destruct He as [(r & _ & ->)|(m & _ & ->)]; reflexivity.
    - intros u z Hz. destruct (Look u z Hz) as [Ne Hz']. destruct (ti_run _ _ _ T u z Hz') as (A1 & A2 & A3). rewrite Ac. split; [|auto]. apply (open_snoc l0 m0 h e _ _ _ L). left. split; [assumption|].
      rewrite Ei. apply Nat.eqb_neq. intros q. apply Ne. symmetry. eapply cur_inj; eauto.
    - intros id u o O. apply (open_snoc l0 m0 h e _ _ _ L) in O as [[O Q]|[_ Q]]; [|destruct He as [(r & _ & ->)|(m & _ & ->)]; discriminate]. destruct (ti_open _ _ _ T _ _ _ O) as (z & Hz & q).
      exists z. split; [|assumption]. unfold c'. simpl. rewrite wlook_other; [assumption|]. intros ->. rewrite Ei in Q. apply Nat.eqb_neq in Q. congruence.
    - intros i id Hi. assert (id <> cur t) as Ne by (intros ->; eapply Pe; eauto). destruct (Po i) as [Q|[_ Q]]; [|congruence]. rewrite Q in Hi.
      destruct (ti_resv _ _ _ T i id Hi) as (u & z & b & vs & A1 & A2 & A3). exists u, z, b, vs. rewrite Ac. split; [|auto]. unfold c'. simpl. rewrite wlook_other; [assumption|congruence].
    - intros u z b n vs Hz Ha i Hi. rewrite Ac in Ha. destruct (Look u z Hz) as [Ne Hz']. pose proof (ti_own _ _ _ T u z b n vs Hz' Ha i Hi) as Q.
      destruct (Po i) as [Q'|[Q' _]]; [congruence|]. exfalso. apply Ne. eapply cur_inj; eauto. congruence.
    - intros id r o v R. apply returned_snoc in R as [R|(-> & u & Hi & Q)]; [|..|assumption].
      + rewrite firstn_snoc by (apply returned_le in R; lia). now apply (ti_ret _ _ _ T).
      + rewrite firstn_snoc, firstn_all by lia. subst e. destruct He as [(r & _ & [= -> <- <-])|(m & _ & Q)]; [|discriminate]. destruct Op as [Op _]. rewrite Op in Hi. injection Hi as <-. assumption.
    - intros id r o v R. apply panicked_snoc in R as [R|(-> & u & Hi & Q)]; [|..|assumption].
      + rewrite firstn_snoc by (apply panicked_le in R; lia). now apply (ti_pan _ _ _ T).
      + rewrite firstn_snoc, firstn_all by lia. subst e. destruct He as [(r & _ & Q)|(m & _ & [= -> <- <-])]; [discriminate|]. destruct Op as [Op _]. rewrite Op in Hi. injection Hi as <-. assumption.
    - apply src_snoc; [apply T|]. intros id u z ->. destruct He as [(r & _ & Q)|(m & _ & Q)]; discriminate.
    - intros o v. unfold c'. simpl. pose proof (ti_rets _ _ _ T o v) as Old. split.
      + intros (q & Hq & Ho & Hv). assert (In q (w_res c) \/ (exists m, e = ERet (cur t) t m /\ r_op q = wc_op x /\ r_ret q = m)) as [Hin|(m & -> & Q1 & Q2)].
        { destruct He as [(r & _ & ->)|(m & _ & ->)].
          - destruct Hr as ((q' & -> & Q1 & Q2) & _). apply in_app_iff in Hq as [Hq|[<-|[]]]; [auto|right; eauto].
          - destruct Hr as [-> _]. auto. }
        * destruct (proj1 Old) as (id & r & R & Ep); [eauto|]. exists id, r. split; [apply returned_snoc; auto|]. rewrite epoch_same, epoch_cut by (auto; apply returned_le in R; lia). assumption.
        * exists (cur t), (length h). split; [apply returned_snoc; auto; right; split; [reflexivity|]; exists t; split; [|congruence]; rewrite <- Ho, Q1; apply Op|].
          rewrite epoch_same, epoch_cut by auto. reflexivity.
      + intros (id & r & R & Ep). apply returned_snoc in R as [R|(-> & u & Hi & Q)]; [|..|assumption].
        * rewrite epoch_same, epoch_cut in Ep by (auto; apply returned_le in R; lia). destruct (proj2 Old) as (q & Hq & Q1 & Q2); [eauto|]. exists q. split; [|auto].
          destruct He as [(r' & _ & ->)|(m & _ & ->)]; [destruct Hr as ((q' & -> & _) & _); apply in_or_app; auto|destruct Hr as [-> _]; assumption].
        * subst e. destruct He as [(r & _ & [= -> <- <-])|(m & _ & Q)]; [|discriminate]. destruct Hr as ((q' & -> & Q1 & Q2) & _). exists q'. split; [apply in_or_app; right; now left|]. split; [|assumption].
          destruct Op as [Op _]. rewrite Op in Hi. congruence.
    - intros o v. unfold c'. simpl. pose proof (ti_pans _ _ _ T o v) as Old. split.
      + intros (q & Hq). assert (In (q, o, v) (w_panics c) \/ (e = EPan (cur t) t v /\ o = wc_op x)) as [Hin|(-> & ->)].
        { destruct He as [(r & _ & ->)|(m & _ & ->)].
          - destruct Hr as (_ & ->). auto.
          - destruct Hr as [_ ->]. apply in_app_iff in Hq as [Hq|[[= <- <- <-]|[]]]; auto. }
        * destruct (proj1 Old) as (id & r & R & Ep); [eauto|]. exists id, r. split; [apply panicked_snoc; auto|]. rewrite epoch_same, epoch_cut by (auto; apply panicked_le in R; lia). assumption.
        * exists (cur t), (length h). split; [apply panicked_snoc; auto; right; split; [reflexivity|]; exists t; split; [|congruence]; apply Op|].
          rewrite epoch_same, epoch_cut by auto. reflexivity.
      + intros (id & r & R & Ep). apply panicked_snoc in R as [R|(-> & u & Hi & Q)]; [|..|assumption].
        * rewrite epoch_same, epoch_cut in Ep by (auto; apply panicked_le in R; lia). destruct (proj2 Old) as (q & Hq); [eauto|]. exists q.
          destruct He as [(r' & _ & ->)|(m & _ & ->)]; [destruct Hr as (_ & ->); assumption|destruct Hr as [_ ->]; apply in_or_app; auto].
        * subst e. destruct He as [(r & _ & Q)|(m & _ & [= -> <- <-])]; [discriminate|]. destruct Hr as [_ ->]. exists (wc_id x). apply in_or_app. right. left.
          destruct Op as [Op _]. rewrite Op in Hi. congruence.
  Qed.

  Lemma TI_clear c g h cur c' : TI c h cur -> SI E ro c g -> wstep E c WClear = WNext c' -> TI c' (h ++ [EClear]) cur.
  Proof.
    intros T S St. pose proof (ti_law _ _ _ T) as L. simpl in St. destruct (w_run c) eqn:R; [|discriminate]. destruct (latest _ <=? latest _); [|discriminate]. injection St as <-.
    assert (Rest : at_rest h) by (intros id t o O; destruct (ti_open _ _ _ T _ _ _ O) as (x & Hx & _); rewrite R in Hx; discriminate).
    assert (L' : lawful l0 m0 (h ++ [EClear])) by (apply lawful_snoc; simpl; auto).
    assert (Rp : replay a0 (h ++ [EClear]) = Abs 0 (fun _ => Unreserved) (a_max (replay a0 h))) by (rewrite replay_snoc; reflexivity).
    assert (No : forall r, r < length h -> epoch (h ++ [EClear]) r <> epoch (h ++ [EClear]) (length (h ++ [EClear]))).
    { intros r Hr. rewrite epoch_cut by lia. unfold epoch at 2. rewrite firstn_all, filter_app, app_length. simpl. unfold epoch.
      pose proof (epoch_mono h r (length h) ltac:(lia)) as X. unfold epoch in X. rewrite firstn_all in X. lia. }
    constructor; simpl; auto; try discriminate.
    - rewrite Rp. constructor; simpl; [reflexivity| |apply T]. intros [|i]; reflexivity.
    - intros id t o O. apply (open_snoc l0 m0 h _ _ _ _ L) in O as [[O _]|[_ Q]]; [|discriminate]. now apply Rest in O.
    - rewrite Rp. discriminate.
    - apply ret_snoc; auto. apply T.
    - apply pan_snoc; auto. apply T.
    - apply src_snoc; [apply T|discriminate].
    - intros o v. split; [intros (q & [] & _)|]. intros (id & r & H1 & H2). exfalso. apply returned_snoc in H1 as [H1|(_ & t & _ & Q)]; [|discriminate|assumption]. apply returned_le in H1. now apply No in H2.
    - intros o v. split; [intros (q & [])|]. intros (id & r & H1 & H2). exfalso. apply panicked_snoc in H1 as [H1|(_ & t & _ & Q)]; [|discriminate|assumption]. apply panicked_le in H1. now apply No in H2.
  Qed.

  Lemma TI_reserve c g h cur c' n : env_ok E -> TI c h cur -> SI E ro c g -> wstep E c (WReserve n) = WNext c' ->
    TI c' (h ++ match reserve E (latest (m_cap (w_mem c))) (m_max (w_mem c)) n with Some m => [EReserve n m] | None => [] end) cur.
  Proof.
    intros EOK T S St. pose proof (ti_law _ _ _ T) as L. simpl in St. destruct (w_run c) eqn:R; [|discriminate]. destruct (reserve E _ _ n) as [mx|] eqn:Re; injection St as <-; [|rewrite app_nil_r; assumption].
    assert (Rest : at_rest h) by (intros id t o O; destruct (ti_open _ _ _ T _ _ _ O) as (x & Hx & _); rewrite R in Hx; discriminate).
    pose proof (proj1 (ok_res E EOK _ _ _ _ (wi_cap_ok _ _ _ _ (si_wi _ _ _ _ S)) Re)) as Hm.
    set (e := EReserve n mx). assert (L' : lawful l0 m0 (h ++ [e])) by (apply lawful_snoc; simpl; auto; rewrite (g_max _ _ (ti_ag _ _ _ T)); assumption).
    assert (Rp : replay a0 (h ++ [e]) = Abs (a_len (replay a0 h)) (a_pos (replay a0 h)) mx) by (rewrite replay_snoc; reflexivity).
    destruct (rets_snoc h e L' eq_refl eq_refl) as [Rs Ps].
    assert (Ac : forall id, accs id (h ++ [e]) = accs id h) by (intros id; rewrite accs_app; apply app_nil_r).
    constructor; simpl; auto; try discriminate.
    - rewrite Rp. destruct (ti_ag _ _ _ T) as [A1 A2 A3]. constructor; simpl; auto.
    - intros id t o O. apply (open_snoc l0 m0 h _ _ _ _ L) in O as [[O _]|[_ Q]]; [|discriminate]. now apply Rest in O.
    - rewrite Rp. simpl. intros i id Hi. destruct (ti_resv _ _ _ T i id Hi) as (u & x & b & vs & A1 & _). rewrite R in A1. discriminate.
    - apply ret_snoc; auto. apply T.
    - apply pan_snoc; auto. apply T.
    - apply src_snoc; [apply T|discriminate].
    - intros o' w. rewrite <- Rs. apply T.
    - intros o' w. rewrite <- Ps. apply T.
  Qed.

  Lemma TI_start k1 : TI (wstart l0 k1 m0) [] (fun _ => 0).
  Proof.
    constructor; simpl; try discriminate.
    - apply lawful_nil.
    - constructor; simpl; auto. intros i. unfold value. simpl. destruct (nth_error l0 i); reflexivity.
    - intros id t o [O _]. destruct id; discriminate.
    - intros i id. destruct (nth_error l0 i); discriminate.
    - intros id r o v (t & H & _). destruct id; discriminate.
    - intros id r o v (t & H & _). destruct id; discriminate.
    - intros [|k]; discriminate.
    - intros o v. split; [intros (q & [] & _)|]. intros (id & r & (t & H & _) & _). destruct id; discriminate.
    - intros o v. split; [intros (q & [])|]. intros (id & r & (t & H & _) & _). destruct id; discriminate.
  Qed.

  Lemma capv_step c g l c' g' : env_ok E -> SI E ro c g -> BI E c -> SI E ro c' g' -> wstep E c l = WNext c' -> l <> WClear ->
    forall u, capv (w_mem c) (w_view c u) <= capv (w_mem c') (w_view c' u).
  Proof.
    intros EOK S B S' St Nl u. pose proof (step_views E ro c g l c' S B St Nl u) as (_ & _ & Hv & _).
    assert (Hc : exists r, m_cap (w_mem c') = m_cap (w_mem c) ++ r).
    { destruct l as [t o from|t k|t w| |n]; simpl in St; [| | |congruence|].
      - destruct (wlookup t (w_run c)); [discriminate|]. destruct (fetch _ _ _); [|discriminate]. injection St as <-. exists []. now rewrite app_nil_r.
      - unfold wstep_thread in St. destruct (wlookup t (w_run c)) as [x|]; [|discriminate]. destruct (wc_prog x) as [r|m|a kk|a ag kk].
        + injection St as <-. exists []. now rewrite app_nil_r.
        + injection St as <-. exists []. now rewrite app_nil_r.
        + destruct (wexec _ _ _ _ _ _) eqn:Ex; try discriminate. injection St as <-. apply wexec_cap in Ex as [Ex|(q & Ex)]; simpl; rewrite Ex; [exists []; now rewrite app_nil_r|eauto].
        + destruct (wexec _ _ _ _ _ _) eqn:Ex; try discriminate. destruct (ag x0); injection St as <-; [exists []; now rewrite app_nil_r|].
          apply wexec_cap in Ex as [Ex|(q & Ex)]; simpl; rewrite Ex; [exists []; now rewrite app_nil_r|eauto].
      - injection St as <-. exists []. now rewrite app_nil_r.
      - destruct (w_run c); [|discriminate]. destruct (reserve E _ _ n); injection St as <-; exists []; now rewrite app_nil_r. }
    destruct Hc as (r & Hc). transitivity (capv (w_mem c') (w_view c u)).
    - unfold capv. rewrite Hc. destruct (si_view _ _ _ _ S u) as (_ & _ & X & _). rewrite nth_error_app1 by assumption. reflexivity.
    - apply (capv_mono E ro); [exists g'; apply S'|assumption|]. destruct (si_view _ _ _ _ S' u) as (_ & _ & X & _). exact X.
  Qed.
  Lemma TI_step c g h cur l c' g' : env_ok E -> TI c h cur -> SI E ro c g -> BI E c -> SI E ro c' g' -> wstep E c l = WNext c' ->
    TI c' (h ++ wevents E (length h) cur c l) (wcur (length h) cur l).
  Proof.
    intros EOK T S B S' St. pose proof (capv_step c g l c' g' EOK S B S' St) as Cv. destruct l as [t o from|t k|t u| |n]; cbn [wevents wcur].
    - eapply TI_inv; eauto. apply Cv. discriminate.
    - specialize (Cv ltac:(discriminate)). simpl in St. unfold wstep_thread in St. destruct (wlookup t (w_run c)) as [x|] eqn:Lk; [|discriminate]. destruct (wc_prog x) as [r|m|a kk|a ag kk] eqn:Hp.
      + injection St as <-. refine (TI_end c g g' h cur t x _ _ _ T S Lk _ S' _); [left; eauto|]. split; [eexists; split; [reflexivity|]; auto|reflexivity].
      + injection St as <-. refine (TI_end c g g' h cur t x _ _ _ T S Lk _ S' _); [right; eauto|]. auto.
      + destruct (wexec _ _ _ _ _ _) as [y M' tv'|f|] eqn:Ex; try discriminate. injection St as <-. eapply TI_access; eauto.
      + destruct (wexec _ _ _ _ _ _) as [y M' tv'|f|] eqn:Ex; try discriminate. destruct (ag y) eqn:Ha; injection St as <-; [rewrite app_nil_r; assumption|]. eapply TI_access; eauto.
    - specialize (Cv ltac:(discriminate)). simpl in St. injection St as <-. rewrite app_nil_r. destruct T as [T1 T2 T3 T4 T5 T6 T7 T8 T9 T10 T11]. constructor; auto.
      intros w x Hx. destruct (T3 w x Hx) as (A1 & A2 & A3). split; [assumption|]. split; [|assumption]. etransitivity; [exact A2|apply Cv].
    - eapply TI_clear; eauto.
    - eapply TI_reserve; eauto.
  Qed.
End WHist.

Section Final.
  Context {V : Type} (E : env V) (ro : bool) (l0 : list V) (c0 m0 : nat).
  Lemma wtrace_reach c h cur : wtrace E ro (wstart l0 c0 m0) c h cur -> wreach E (wclient E ro) (wstart l0 c0 m0) c.
  Proof. induction 1; econstructor; eauto. Qed.
  Lemma reach_wtrace c : wreach E (wclient E ro) (wstart l0 c0 m0) c -> exists h cur, wtrace E ro (wstart l0 c0 m0) c h cur.
  Proof. induction 1 as [|c l c' R (h & cur & IH) C S]; eexists; eexists; econstructor; eauto. Qed.
  Lemma whistory_execution c h : whistory E ro l0 c0 m0 c h -> wexecution E ro l0 c0 m0 c.
  Proof. intros (A & B & C & D & cur & T). repeat (split; [assumption|]). eapply wtrace_reach; eauto. Qed.
  Lemma execution_whistory c : wexecution E ro l0 c0 m0 c -> exists h, whistory E ro l0 c0 m0 c h.
  Proof. intros (A & B & C & D & R). destruct (reach_wtrace c R) as (h & cur & T). exists h. repeat (split; [assumption|]). eauto. Qed.
  Theorem whistory_TI c h : whistory E ro l0 c0 m0 c h -> exists cur, TI E l0 m0 c h cur.
  Proof.
    intros (A & B & C & D & cur & T). exists cur. induction T as [|c h cur l c' T IH Cl St]; [apply TI_start|].
    assert (X : wexecution E ro l0 c0 m0 c) by (repeat (split; [assumption|]); eapply wtrace_reach; eauto).
    assert (X' : wexecution E ro l0 c0 m0 c') by (repeat (split; [assumption|]); econstructor; eauto; eapply wtrace_reach; eauto).
    destruct (execution_SI E ro _ _ _ _ X) as (_ & g & S & Bi). destruct (execution_SI E ro _ _ _ _ X') as (_ & g' & S' & _).
    eapply TI_step; eauto.
  Qed.
End Final.
