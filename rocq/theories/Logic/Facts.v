(** * Lemmas about executions, used by the property files. *)

From Coq Require Import List Arith Bool Lia.
From Verif.Model Require Import Prog Mem Deps State Elem Vec Excl Machine.
From Verif Require Import Client Spec.
From Verif.Logic Require Import Inv WP Post Specs Ops Sound Shape Clients Hist Locks.
Import ListNotations.
Local Arguments Nat.leb : simpl never.
Local Arguments Nat.ltb : simpl never.
Local Arguments Nat.eqb : simpl never.
Local Arguments Nat.add : simpl never.
Local Arguments Nat.sub : simpl never.

Section Lists.
  Context {V : Type}.

  Definition keep_inits (l : list (acc V)) : list (nat * V) :=
    flat_map (fun a => match a with AcInit i v => [(i, v)] | _ => [] end) l.
  Lemma keep_eff (l : list (acc V)) : keep_inits (eff l) = keep_inits l.
  Proof. induction l as [|x l IH]; simpl; [reflexivity|]. destruct x; simpl; rewrite ?IH; reflexivity. Qed.
  Lemma keep_inits_inits b (vs : list V) : keep_inits (inits b vs) = combine (seq b (length vs)) vs.
  Proof. revert b. induction vs as [|v vs IH]; intros b; simpl; [reflexivity|]. now rewrite IH. Qed.
  Lemma stored_eff id (h : list (event V)) : stored id h = keep_inits (eff (accs id h)).
  Proof. now rewrite keep_eff. Qed.
  Lemma stored_in id i v (h : list (event V)) : In (i, v) (stored id h) <-> exists j t, nth_error h j = Some (EAcc id t (AcInit i v)).
  Proof.
    unfold stored, accs. rewrite in_flat_map. split.
    - intros (a & H1 & H2). apply in_flat_map in H1. destruct H1 as (e & H1 & H3). apply in_nth in H1. destruct H1 as (j & Hj).
      destruct e as [| | |id' t x| |]; try destruct H3. destruct (Nat.eqb_spec id' id) as [->|]; [|destruct H3].
      destruct H3 as [->|[]]. destruct a; simpl in H2; try contradiction. destruct H2 as [X|[]]. injection X as -> ->. eauto.
    - intros (j & t & H). exists (AcInit i v). split; [|simpl; auto]. apply in_flat_map. exists (EAcc id t (AcInit i v)).
      split; [eapply nth_error_In; eauto|]. rewrite Nat.eqb_refl. simpl. auto.
  Qed.
  Lemma combine_seq_in b (vs : list V) i v : In (i, v) (combine (seq b (length vs)) vs) <-> b <= i /\ nth_error vs (i - b) = Some v.
  Proof.
    revert b. induction vs as [|w vs IH]; intros b; simpl.
    - split; [tauto|]. intros [_ H]. destruct (i - b); discriminate.
    - rewrite IH. split.
      + intros [H|[H1 H2]]; [injection H as -> ->; split; [lia|]; rewrite Nat.sub_diag; reflexivity|].
        split; [lia|]. replace (i - b) with (S (i - S b)) by lia. exact H2.
      + intros [H1 H2]. destruct (Nat.eq_dec b i) as [->|N].
        * rewrite Nat.sub_diag in H2. injection H2 as ->. auto.
        * right. split; [lia|]. replace (i - b) with (S (i - S b)) in H2 by lia. exact H2.
  Qed.

  (** accesses that give position [i] a new value *)
  Definition changes (i : nat) (e : event V) : Prop :=
    match e with
    | EAcc _ _ (AcInit j _) | EAcc _ _ (AcWrite j _ _) => j = i
    | EAcc _ _ (AcSwap j k _ _) => j = i \/ k = i
    | EClear => True
    | _ => False
    end.
  Lemma changes_dec i e : {changes i e} + {~ changes i e}.
  Proof.
    destruct e as [| | |id t []| |]; simpl; try (right; tauto); try (left; tauto); try apply Nat.eq_dec.
    destruct (Nat.eq_dec i0 i); [left; auto|]. destruct (Nat.eq_dec j i); [left; auto|]. right. tauto.
  Qed.
  Lemma value_apply (a : abs V) e i : ~ changes i e -> (forall id t b n, e = EAcc id t (AcAdd b n) -> value a i = None \/ ~ (b <= i < b + n)) ->
    value (apply a e) i = value a i.
  Proof.
    intros N A. unfold value. destruct e as [| |id t m|id t [b n|j v|j v|j old w|j k v w|j x|n|n]| |]; simpl in *; try reflexivity; try tauto.
    - destruct (a_pos a i) as [|j| |]; try reflexivity. now destruct (j =? id).
    - unfold in_range. destruct (Nat.leb_spec b i), (Nat.ltb_spec i (b + n)); simpl; try reflexivity.
      destruct (A _ _ _ _ eq_refl) as [H1|H1]; [|lia]. unfold value in H1. now rewrite H1.
    - rewrite upd_other; auto.
    - rewrite upd_other; auto.
    - rewrite !upd_other; auto.
  Qed.
End Lists.

Section Runs.
  Context {V : Type} (E : env V) (ro nl : bool) (l0 : list V) (c0 m0 : nat).
  Notation execution := (execution E ro nl l0 c0 m0).

  (** every prefix of the history is the history of an execution *)
  Lemma step_hist c l c' : step E c l = Next c' -> hist c' = hist c \/ exists e, hist c' = hist c ++ [e].
  Proof.
    destruct l as [t o|t| |k]; simpl; intros S.
    - destruct (lookup t (run c)); [discriminate|]. destruct (has_grant o (given c)); [|discriminate]. injection S as <-. simpl. eauto.
    - unfold step_thread in S. destruct (lookup t (run c)) as [x|]; [|discriminate]. destruct (c_prog x) as [r|m|a k|a ag k].
      + injection S as <-. simpl. eauto.
      + injection S as <-. simpl. eauto.
      + destruct (exec E t a (sh c)) eqn:Ex; [|discriminate]. injection S as <-. simpl.
        destruct (acc_list _ _ _ _ _ _ _ Ex) as [->|(z & -> & _)]; simpl; [left; apply app_nil_r|eauto].
      + destruct (exec E t a (sh c)) eqn:Ex; [|discriminate]. destruct (ag x0); injection S as <-; [auto|]. simpl.
        destruct (acc_list _ _ _ _ _ _ _ Ex) as [->|(z & -> & _)]; simpl; [left; apply app_nil_r|eauto].
    - destruct (run c); [|discriminate]. destruct (clear (sh c)); try discriminate; injection S as <-; simpl; eauto.
    - destruct (run c); [|discriminate]. destruct (reserve_maximum_capacity E k (sh c)) as [[m s]| |]; try discriminate; injection S as <-; simpl; eauto.
  Qed.

  Lemma execution_prefix c k : execution c -> k <= length (hist c) -> exists c', execution c' /\ hist c' = firstn k (hist c).
  Proof.
    intros (X1 & X2 & X3 & X4 & R) Hk. revert k Hk. induction R as [|c l c' R IH C S]; intros k Hk.
    - exists (start l0 c0 m0). split; [|simpl in *; now rewrite firstn_nil]. repeat (split; [assumption|]). apply reach_start.
    - destruct (Nat.le_gt_cases k (length (hist c))) as [H|H].
      + destruct (IH k H) as (d & D1 & D2). exists d. split; [assumption|].
        destruct (step_hist _ _ _ S) as [->|(e & ->)]; [assumption|]. rewrite firstn_app.
        replace (k - length (hist c)) with 0 by lia. simpl. now rewrite app_nil_r.
      + exists c'. split; [repeat (split; [assumption|]); eapply reach_step; eauto|].
        rewrite firstn_all2; [reflexivity|]. destruct (step_hist _ _ _ S) as [Hh|(e & Hh)]; rewrite Hh; rewrite ?app_length; simpl; try lia.
  Qed.

  (** the step that made an event *)
  Lemma execution_event c j e : execution c -> nth_error (hist c) j = Some e -> exists d l d', execution d /\ client E ro nl (length l0) d l /\ step E d l = Next d' /\
    hist d = firstn j (hist c) /\ hist d' = hist d ++ [e] /\ reach E (client E ro nl (length l0)) d' c.
  Proof.
    intros (X1 & X2 & X3 & X4 & R). induction R as [|c l c' R IH C S]; intros Hj; [destruct j; discriminate|].
    destruct (Nat.lt_ge_cases j (length (hist c))) as [H|H].
    - assert (Hj' : nth_error (hist c) j = Some e /\ firstn j (hist c') = firstn j (hist c)).
      { destruct (step_hist _ _ _ S) as [Q|(e' & Q)]; rewrite Q in *; [auto|]. rewrite nth_error_app1 in Hj by assumption. split; [assumption|].
        rewrite firstn_app. replace (j - length (hist c)) with 0 by lia. simpl. now rewrite app_nil_r. }
      destruct Hj' as [Hj' Hf]. destruct (IH Hj') as (d & l1 & d' & D1 & D0 & D2 & D3 & D4 & D5). exists d, l1, d'.
      split; [assumption|]. split; [assumption|]. split; [assumption|]. split; [congruence|]. split; [assumption|]. eapply reach_step; eauto.
    - destruct (step_hist _ _ _ S) as [Q|(e' & Q)]; rewrite Q in *; [apply nth_error_None in H; congruence|].
      rewrite nth_error_app2 in Hj by assumption. destruct (j - length (hist c)) as [|q] eqn:Hq; simpl in Hj; [|destruct q; discriminate].
      injection Hj as ->. exists c, l, c'. split; [repeat (split; [assumption|]); assumption|]. split; [assumption|]. split; [assumption|].
      assert (j = length (hist c)) by lia. subst j. split; [now rewrite firstn_app, Nat.sub_diag, firstn_all, app_nil_r|]. split; [assumption|]. apply reach_start.
  Qed.

  Lemma execution_expl c : execution c -> exists snap, explained E ro nl l0 m0 snap (hist c) /\ snap (length (hist c)) = sh c.
  Proof.
    intros X. destruct (execution_world E ro nl l0 c0 m0 c X) as (snap & g & W). exists snap.
    split; [apply (gi_expl _ _ _ _ _ _ _ _ (w_gi _ _ _ _ _ _ _ _ W))|apply (gi_snap _ _ _ _ _ _ _ _ (w_gi _ _ _ _ _ _ _ _ W))].
  Qed.

  Lemma execution_len c : execution c -> a_len (replay (abs0 l0 m0) (hist c)) <= requested (length l0) (hist c).
  Proof.
    intros X. destruct (execution_world E ro nl l0 c0 m0 c X) as (snap & g & W).
    pose proof (gi_agree _ _ _ _ _ _ _ _ (w_gi _ _ _ _ _ _ _ _ W)) as A. pose proof (b_le _ _ _ (w_b _ _ _ _ _ _ _ _ W)) as B.
    rewrite (ag_len _ _ A) in B. unfold a0 in B. lia.
  Qed.
End Runs.

Section Post.
  Context {V : Type} (E : env V).

  Lemma post_grows o v tr sI sR : post E o v tr sI sR -> grows o = true ->
    exists b vs, v = RNat b /\ supplies o b vs /\ length vs = request o /\ eff tr = AcAdd b (request o) :: inits b vs.
  Proof.
    destruct o; simpl; try discriminate; intros P _.
    - destruct P as (b & -> & L & H). exists b, [v0]. auto.
    - destruct P as (b & w & F & -> & L & H). exists b, [w]. split; [reflexivity|]. split; [eauto|]. auto.
    - destruct P as (b & vs & F & -> & L & H). exists b, vs. auto.
    - destruct P as (b & it & vs & F & F' & -> & L & H). exists b, vs. split; [reflexivity|]. split; [eauto|]. auto.
    - destruct P as (b & vs & F & -> & L & H). exists b, vs. auto.
  Qed.

  Lemma pan_grows o m tr sI sR : pan E o m tr sI sR -> grows o = true ->
    exists b vs, length vs <= request o /\ eff tr = AcAdd b (request o) :: inits b vs /\
      ((m = PMaxCap /\ 0 < request o /\ maxc sI < b + request o /\ vs = []) \/
       (m <> PMaxCap /\ (length vs < request o \/ vs = []) /\
        ((exists f, o = OPushFor f /\ f b = None /\ m = PClosure) \/ (0 < request o -> b + request o <= cap sR)))).
  Proof.
    assert (GP : forall n it b, grow_pan n it b m tr sI sR -> exists vs, length vs <= n /\ eff tr = AcAdd b n :: inits b vs /\
      ((m = PMaxCap /\ 0 < n /\ maxc sI < b + n /\ vs = []) \/ (m <> PMaxCap /\ (length vs < n \/ vs = []) /\ b + n <= cap sR))).
    { intros n it b [(-> & H1 & H2 & H3)|(H1 & vs & H2 & H3 & H4)].
      - exists []. simpl. split; [lia|]. split; [assumption|]. left. auto.
      - exists vs. split; [lia|]. split; [assumption|]. right. split; [|auto]. destruct H4 as [[-> _]|[-> _]]; discriminate. }
    destruct o; simpl; try discriminate; intros P _.
    - destruct P as (b & -> & H1 & H2). exists b, []. simpl. split; [lia|]. split; [assumption|]. left. repeat split; auto; lia.
    - destruct P as (b & H1 & [(-> & H2 & _)|(-> & H2)]); exists b, []; simpl; (split; [lia|]); (split; [assumption|]).
      + left. repeat split; auto; lia.
      + right. split; [discriminate|]. split; [auto|]. left. eauto.
    - destruct P as (b & P). destruct (GP _ _ _ P) as (vs & H1 & H2 & H3). exists b, vs. split; [assumption|]. split; [assumption|]. intuition.
    - destruct P as (b & [(-> & H1 & H2 & H3)|[(-> & H1 & H2 & H3)|[(-> & H1 & H2 & H3)|(it & H1 & P)]]]).
      + exists b, []. simpl. split; [lia|]. split; [assumption|]. left. auto.
      + exists b, []. simpl. split; [lia|]. split; [assumption|]. right. split; [discriminate|]. auto.
      + exists b, []. simpl. split; [lia|]. split; [assumption|]. right. split; [discriminate|]. auto.
      + destruct (GP _ _ _ P) as (vs & H4 & H5 & H6). exists b, vs. split; [assumption|]. split; [assumption|]. intuition.
    - destruct P as (b & P). destruct (GP _ _ _ P) as (vs & H1 & H2 & H3). exists b, vs. split; [assumption|]. split; [assumption|]. intuition.
  Qed.

  (** only growth calls reserve positions *)
  Lemma inits_only (vs : list V) b x : In x (inits b vs) -> exists i v, x = AcInit i v.
  Proof. revert b. induction vs as [|v vs IH]; intros b; simpl; [tauto|]. intros [<-|H]; [eauto|eapply IH; eauto]. Qed.
  Lemma reads_only (vs : list V) b x : In x (reads b vs) -> exists i v, x = AcRead i v.
  Proof. revert b. induction vs as [|v vs IH]; intros b; simpl; [tauto|]. intros [<-|H]; [eauto|eapply IH; eauto]. Qed.
  Lemma writes_only (vs : list (V * V)) b x : In x (writes b vs) -> exists i v w, x = AcWrite i v w.
  Proof. revert b. induction vs as [|v vs IH]; intros b; simpl; [tauto|]. intros [<-|H]; [eauto|eapply IH; eauto]. Qed.

  Lemma pan_add o m tr sI sR b n : pan E o m tr sI sR -> In (AcAdd b n) tr -> grows o = true.
  Proof.
    intros P Hin. pose proof (eff_in _ _ Hin eq_refl) as He.
    destruct o; simpl in P; try contradiction; try reflexivity; exfalso.
    - destruct P as (_ & X & _). rewrite X in He. destruct He.
    - destruct P as (? & _ & _ & _ & X & _). rewrite X in He. destruct He.
    - destruct P as (? & _ & _ & ps & _ & _ & X & _). rewrite X in He. now apply writes_add in He.
    - destruct P as (? & _ & _ & ps & _ & X & _). rewrite X in He. now apply reads_add in He.
    - destruct P as (? & _ & _ & ps & _ & X & _). rewrite X in He. now apply reads_add in He.
    - destruct P as (? & _ & _ & ps & _ & X & _). rewrite X in He. now apply reads_add in He.
    - destruct P as (? & _ & _ & ps & _ & X & _). rewrite X in He. now apply reads_add in He.
    - destruct P as (_ & X & _). rewrite X in He. destruct He.
    - destruct P as (_ & _ & X). rewrite X in He. destruct He.
    - destruct o; simpl in P; try contradiction; destruct P as (_ & v & X & _); rewrite X in He; simpl in He;
        destruct He as [He|[]]; discriminate.
    - destruct o; simpl in P; try contradiction.
      + destruct P as (_ & _ & X). rewrite X in He. destruct He.
      + destruct P as (_ & _ & X & _). rewrite X in He. destruct He.
      + destruct P as (_ & ps & _ & _ & X & _). rewrite X in He. now apply writes_add in He.
      + destruct P as (_ & ps & _ & X & _). rewrite X in He. now apply reads_add in He.
      + destruct P as (_ & ps & _ & X & _). rewrite X in He. now apply reads_add in He.
      + destruct P as (_ & ps & _ & X & _). rewrite X in He. now apply reads_add in He.
      + destruct P as (_ & ps & _ & X & _). rewrite X in He. now apply reads_add in He.
      + destruct P as (_ & _ & X). rewrite X in He. destruct He.
      + destruct P as (_ & _ & X). rewrite X in He. destruct He.
  Qed.

  Lemma pan_kind o m tr sI sR : pan E o m tr sI sR -> m <> PHasValue /\ m <> PSet /\ m <> PUpdate /\ m <> PGrow.
  Proof.
    intros P.
    assert (GP : forall n it b, grow_pan n it b m tr sI sR -> m = PMaxCap \/ m = PShortIter \/ m = PClosure).
    { intros n it b [(-> & _)|(_ & vs & _ & _ & [[-> _]|[-> _]])]; auto. }
    assert (m = PMaxCap \/ m = PShortIter \/ m = PClosure \/ m = PIterLen \/ m = POutOfBounds \/ m = POverflow \/ m = PAssert) as K.
    { destruct o; simpl in P; try contradiction.
      - destruct P as (b & -> & _). auto.
      - destruct P as (b & _ & [(-> & _)|(-> & _)]); auto.
      - destruct P as (b & P). destruct (GP _ _ _ P) as [|[|]]; auto.
      - destruct P as (b & [(-> & _)|[(-> & _)|[(-> & _)|(it & _ & P)]]]); auto. destruct (GP _ _ _ P) as [|[|]]; auto.
      - destruct P as (b & P). destruct (GP _ _ _ P) as [|[|]]; auto.
      - destruct P as (-> & _). auto 10.
      - destruct P as (n & _ & -> & _). auto 10.
      - destruct P as (n & _ & -> & _). auto 10.
      - destruct P as (n & _ & -> & _). auto 10.
      - destruct P as (n & _ & -> & _). auto 10.
      - destruct P as (n & _ & -> & _). auto 10.
      - destruct P as (n & _ & -> & _). auto 10.
      - destruct P as (-> & _). auto 10.
      - destruct P as (-> & _). auto 10.
      - destruct o; simpl in P; try contradiction; destruct P as (-> & _); auto.
      - destruct o; simpl in P; try contradiction; destruct P as (-> & _); auto 10. }
    repeat split; intros ->; intuition discriminate.
  Qed.
End Post.

Section Growth.
  Context {V : Type} (E : env V) (ro nl : bool) (l0 : list V) (m0 : nat).
  Context (snap : nat -> shared V) (h : list (event V)).
  Context (X : explained E ro nl l0 m0 snap h).
  Notation a0 := (abs0 l0 m0).
  Notation at_ k := (before a0 h k).
  Notation ev k e := (nth_error h k = Some e).

  Lemma in_accs id r x e : In x (accs id (firstn r h)) -> ev r e -> is_end id e = true ->
    exists j t, id < j < r /\ ev j (EAcc id t x) /\ epoch h j = epoch h id.
  Proof.
    intros H He Hr. apply accs_firstn in H. destruct H as (j & t & Hj & Hx).
    destruct (h_acc _ _ _ _ _ _ _ X j id t x Hx) as (o & A1 & _ & A2 & _). exists j, t. auto.
  Qed.

  Lemma grew_facts id r b n : grew h id r b n -> exists o t j vs,
    returned h id r o (RNat b) /\ grows o = true /\ request o = n /\
    id < j < r /\ r < length h /\ epoch h id = epoch h r /\ epoch h j = epoch h id /\
    ev j (EAcc id t (AcAdd b n)) /\ supplies o b vs /\ length vs = n /\
    eff (accs id h) = AcAdd b n :: inits b vs.
  Proof.
    intros (o & R & Gr & Rq). destruct (h_returned _ _ _ _ _ _ _ X id r o _ R) as (H1 & H2 & H3 & H4 & P & _).
    destruct (post_grows E _ _ _ _ _ P Gr) as (b' & vs & Hb & Sp & Lv & Ef). injection Hb as <-.
    assert (Hin : In (AcAdd b (request o)) (accs id (firstn r h))).
    { assert (In (AcAdd b (request o)) (eff (accs id (firstn r h)))) by (rewrite Ef; simpl; auto). apply filter_In in H. apply H. }
    assert (R' := R). destruct R' as (t & R1 & R2).
    destruct (in_accs id r _ _ Hin R2 ltac:(simpl; apply Nat.eqb_refl)) as (j & t' & Hj & Hx & He).
    exists o, t', j, vs. subst n.
    assert (eff (accs id h) = AcAdd b (request o) :: inits b vs).
    { rewrite (accs_all _ _ _ _ _ _ _ X id r _ R2 ltac:(simpl; apply Nat.eqb_refl)). exact Ef. }
    repeat (split; [first [assumption | reflexivity]|]). assumption.
  Qed.

  Lemma grew_stored id r b n : grew h id r b n -> exists o vs, returned h id r o (RNat b) /\ grows o = true /\ request o = n /\
    supplies o b vs /\ length vs = n /\ stored id h = combine (seq b n) vs.
  Proof.
    intros G. destruct (grew_facts _ _ _ _ G) as (o & t & j & vs & G1 & G2 & G3 & _ & _ & _ & _ & _ & G4 & G5 & G6).
    exists o, vs. repeat (split; [assumption|]). rewrite stored_eff, G6. simpl. rewrite keep_inits_inits, G5. reflexivity.
  Qed.

  Lemma init_has j id t i v : ev j (EAcc id t (AcInit i v)) -> a_pos (at_ (S j)) i = Has v.
  Proof. intros H. rewrite (before_S _ h j _ H). simpl. apply upd_same. Qed.

  Lemma init_once j j' id id' t t' i v v' : ev j (EAcc id t (AcInit i v)) -> ev j' (EAcc id' t' (AcInit i v')) ->
    epoch h j = epoch h j' -> j = j'.
  Proof.
    assert (K : forall j j' id id' t t' i v v', ev j (EAcc id t (AcInit i v)) -> ev j' (EAcc id' t' (AcInit i v')) ->
      epoch h j = epoch h j' -> ~ j < j').
    { clear j j' id id' t t' i v v'. intros j j' id id' t t' i v v' H1 H2 He L. pose proof (init_has _ _ _ _ _ H1) as Hv.
      destruct (h_has _ _ _ _ _ _ _ X (S j) j' i v) as (w & Hw); auto.
      - apply nth_lt in H2. lia.
      - rewrite (epoch_S h j _ H1). simpl. lia.
      - destruct (h_ev _ _ _ _ _ _ _ X j' _ H2) as (_ & Lg & _). simpl in Lg. congruence. }
    intros H1 H2 He. pose proof (K _ _ _ _ _ _ _ _ _ H1 H2 He). pose proof (K _ _ _ _ _ _ _ _ _ H2 H1 (eq_sym He)). lia.
  Qed.

  (** a value stays until it is overwritten *)
  Lemma keep j k i v : j <= k -> k <= length h -> epoch h j = epoch h k -> untouched h i j k ->
    a_pos (at_ j) i = Has v -> a_pos (at_ k) i = Has v.
  Proof.
    intros H. induction H as [|k H IH]; intros Hk He U Hv; [assumption|].
    destruct (nth_error h k) as [e|] eqn:Hn; [|apply nth_error_None in Hn; lia].
    assert (He' : epoch h j = epoch h k) by (pose proof (epoch_mono h j k ltac:(lia)); pose proof (epoch_mono h k (S k) ltac:(lia)); lia).
    specialize (IH ltac:(lia) He' ltac:(intros q x Hq; apply U; lia) Hv).
    rewrite (before_S _ h k e Hn). specialize (U k e ltac:(lia) Hn).
    destruct (h_ev _ _ _ _ _ _ _ X k e Hn) as (_ & Lg & _).
    pose proof (epoch_S h k e Hn) as Es.
    destruct e as [| |id t m|id t [b n|jj w|jj w|jj old w|jj kk w z|jj x|n|n]| |]; simpl in *; try assumption.
    - now rewrite IH.
    - unfold in_range. destruct (Nat.leb_spec b i), (Nat.ltb_spec i (b + n)); simpl; try assumption.
      pose proof (h_has_len _ _ _ _ _ _ _ X k i v ltac:(lia) IH). lia.
    - destruct (Nat.eq_dec i jj) as [->|]; [congruence|]. rewrite upd_other; auto.
    - rewrite upd_other; auto.
    - rewrite !upd_other; auto.
    - lia.
  Qed.

  (** position of a completed growth call *)
  Lemma supplies_fun o b (vs vs' : list V) : supplies o b vs -> supplies o b vs' -> vs = vs'.
  Proof.
    assert (MI : forall a b : list V, map Some a = map Some b -> a = b).
    { induction a as [|x a IH]; destruct b0; simpl; intros Y; try discriminate; [reflexivity|]. injection Y as -> Y. f_equal. auto. }
    intros Sp Sp'. destruct o; simpl in *; try contradiction; try congruence.
    - destruct Sp as (? & ? & ->), Sp' as (? & ? & ->). congruence.
    - destruct Sp as [Sp _], Sp' as [Sp' _]. apply MI. congruence.
    - destruct Sp as (it & Sp0 & Sp & _), Sp' as (it' & Sp0' & Sp' & _). apply MI. congruence.
    - destruct Sp as [Sp _], Sp' as [Sp' _]. apply MI. congruence.
  Qed.
  Lemma grew_value id r o b vs j v k : returned h id r o (RNat b) -> grows o = true -> supplies o b vs -> nth_error vs j = Some v ->
    r <= k -> k <= length h -> epoch h id = epoch h k -> untouched h (b + j) id k -> a_pos (at_ k) (b + j) = Has v.
  Proof.
    intros R Gr Sp Hv Hr Hk He U.
    destruct (grew_facts id r b (request o)) as (o' & t & w & vs' & R' & _ & _ & A1 & A2 & A3 & _ & _ & Sp' & L & St).
    { exists o. auto. }
    assert (o' = o) by (destruct R as (t1 & R & _), R' as (t2 & R' & _); congruence). subst o'.
    rewrite (supplies_fun o b vs vs' Sp Sp') in Hv.
    assert (Hin : In (b + j, v) (stored id h)).
    { rewrite stored_eff, St. simpl. rewrite keep_inits_inits. apply combine_seq_in. split; [lia|].
      replace (b + j - b) with j by lia. exact Hv. }
    apply stored_in in Hin. destruct Hin as (q & u & Hq). pose proof (nth_lt _ _ _ Hq) as Lq.
    destruct (h_acc _ _ _ _ _ _ _ X q id u _ Hq) as (o3 & Q1 & _ & Q3 & _).
    assert (Lr : q < r). { destruct R as (t1 & _ & R). eapply h_acc_end; [exact X|exact Hq|exact R|]. apply Nat.eqb_refl. }
    apply (keep (S q)); [lia|lia| | |eapply init_has; eauto].
    - rewrite (epoch_S h q _ Hq). simpl. lia.
    - intros z e Hz. apply U. lia.
  Qed.

  Lemma grew_has id r b n i : grew h id r b n -> b <= i < b + n -> exists v, a_pos (at_ r) i = Has v.
  Proof.
    intros G Hi. destruct (grew_facts _ _ _ _ G) as (o & t & j & vs & (t' & G1 & G1') & _ & _ & G4 & G5 & G6 & G7 & _ & _ & G8 & G9).
    destruct (grew_stored _ _ _ _ G) as (o2 & vs2 & _ & _ & _ & _ & Lv & St).
    destruct (nth_error vs2 (i - b)) as [v|] eqn:Hv; [|apply nth_error_None in Hv; lia].
    assert (Hin : In (i, v) (stored id h)).
    { rewrite St, <- Lv. apply combine_seq_in. split; [lia|assumption]. }
    apply stored_in in Hin. destruct Hin as (q & u & Hq).
    pose proof (h_acc_end _ _ _ _ _ _ _ X q id u _ r _ Hq G1' ltac:(simpl; apply Nat.eqb_refl)) as Hqr.
    destruct (h_acc _ _ _ _ _ _ _ X q id u _ Hq) as (o3 & A1 & _ & A3 & _).
    eapply (h_has _ _ _ _ _ _ _ X (S q) r); [lia|lia| |eapply init_has; eauto].
    rewrite (epoch_S h q _ Hq). simpl. lia.
  Qed.
End Growth.

Section Rest.
  Context {V : Type} (E : env V) (ro nl : bool) (l0 : list V) (c0 m0 : nat).
  Notation execution := (execution E ro nl l0 c0 m0).

  Lemma rest_run c : execution c -> at_rest (hist c) -> run c = [].
  Proof.
    intros X R. destruct (execution_world E ro nl l0 c0 m0 c X) as (snap & g & W). pose proof (w_gi _ _ _ _ _ _ _ _ W) as G.
    destruct (run c) as [|[t x] r] eqn:Hr; [reflexivity|]. exfalso.
    destruct (gi_run _ _ _ _ _ _ _ _ G t x) as [O _]; [rewrite Hr; simpl; now rewrite Nat.eqb_refl|]. eapply R; eauto.
  Qed.
  Lemma run_rest c : execution c -> run c = [] -> at_rest (hist c).
  Proof.
    intros X R id t o O. destruct (execution_world E ro nl l0 c0 m0 c X) as (snap & g & W). pose proof (w_gi _ _ _ _ _ _ _ _ W) as G.
    destruct (gi_open _ _ _ _ _ _ _ _ G _ _ _ O) as (x & Hx & _). rewrite R in Hx. discriminate.
  Qed.

  Lemma pos_cases c i : execution c ->
    match a_pos (replay (abs0 l0 m0) (hist c)) i with
    | Unreserved => a_len (replay (abs0 l0 m0) (hist c)) <= i
    | Reserved id => exists t o, open (hist c) id t o
    | Abandoned => ~ no_growth_panic (hist c)
    | Has _ => i < a_len (replay (abs0 l0 m0) (hist c))
    end.
  Proof.
    intros X. destruct (execution_world E ro nl l0 c0 m0 c X) as (snap & g & W). pose proof (w_gi _ _ _ _ _ _ _ _ W) as G.
    pose proof (gi_pos _ _ _ _ _ _ _ _ G i) as P. pose proof (gi_agree _ _ _ _ _ _ _ _ G) as A. unfold a0 in *.
    pose proof (gi_expl _ _ _ _ _ _ _ _ G) as Ex.
    destruct (a_pos (replay (abs0 l0 m0) (hist c)) i) as [|id| |v] eqn:Hp; simpl in P.
    - rewrite <- (ag_len _ _ A). apply (i_free _ _ _ _ (gi_inv _ _ _ _ _ _ _ _ G)). assumption.
    - destruct P as (t & y & Lk & <- & _). destruct (gi_run _ _ _ _ _ _ _ _ G t y Lk) as [O _]. eauto.
    - intros NP. apply abandoned_from in Hp.
      2:{ destruct (start_pos l0 m0 i) as [Y|[v Y]]; rewrite Y; discriminate. }
      destruct Hp as (h1 & id & t & m & h2 & Hh & Hc & Hr). apply reserved_from in Hr.
      2:{ intros j. destruct (start_pos l0 m0 i) as [Y|[v Y]]; rewrite Y; discriminate. }
      destruct Hr as (h3 & t' & b & n & h4 & H1 & _ & Hb).
      destruct (x_ev _ _ _ _ _ _ _ Ex h1 _ h2 Hh) as (_ & _ & _ & _ & o & Ho & Pn).
      assert (Hin : In (AcAdd b n) (accs id h1)).
      { apply accs_in with (t := t'). rewrite H1. apply in_or_app. simpl. auto. }
      pose proof (pan_add E _ _ _ _ _ _ _ Pn Hin) as Gr.
      assert (Hr : nth_error (hist c) (length h1) = Some (EPan id t m)).
      { rewrite Hh, nth_error_app2, Nat.sub_diag by lia. reflexivity. }
      apply (NP (length h1) id o m).
      + exists t. split; [|assumption]. rewrite Hh, nth_error_app1; [apply Ho|]. eapply open_lt; eauto.
      + assumption.
      + rewrite (epoch_eq (hist c) (length h1) (length (hist c))); [reflexivity|rewrite Hh, app_length; lia|].
        intros j Hj Hn. rewrite Hh in Hn. rewrite nth_error_app2 in Hn by lia.
        destruct (j - length h1) as [|q]; simpl in Hn; [discriminate|]. apply nth_error_In in Hn. contradiction.
    - rewrite <- (ag_len _ _ A). apply (good_filled_resv E ro); [eexists; apply G|].
      apply (full_filled _ _ _ _ _ (gi_inv _ _ _ _ _ _ _ _ G)). assumption.
  Qed.

  Lemma beyond_over c i : execution c -> a_pos (replay (abs0 l0 m0) (hist c)) i = Abandoned -> cap (sh c) <= i -> overrun (hist c).
  Proof. intros X. destruct (execution_world E ro nl l0 c0 m0 c X) as (snap & g & W). exact (dead_over E ro nl l0 m0 c snap g i (w_gi _ _ _ _ _ _ _ _ W)). Qed.
  Lemma calm_over c : execution c -> no_growth_panic (hist c) -> ~ overrun (hist c).
  Proof.
    intros X NP (h1 & id & t & m & h2 & o & Hh & Hc & Hi & Tf). destruct (execution_expl E ro nl l0 c0 m0 c X) as (snap & Ex & _).
    destruct (x_ev _ _ _ _ _ _ _ Ex h1 _ h2 Hh) as (_ & _ & _ & _ & o' & Ho & Pn). pose proof Ho as [Ho' _]. rewrite Hi in Ho'. injection Ho' as <-.
    assert (Gr : grows o = true).
    { destruct Tf as [->|[_ [f ->]]]; [|reflexivity]. destruct o; try reflexivity; exfalso; simpl in Pn; try contradiction;
        try (destruct o; simpl in Pn; try contradiction); unfold over, writes_pan, reads_pan in Pn; repeat (match goal with H : exists _, _ |- _ => destruct H | H : _ /\ _ |- _ => destruct H end); discriminate. }
    assert (Hr : nth_error (hist c) (length h1) = Some (EPan id t m)) by (rewrite Hh, nth_error_app2, Nat.sub_diag by lia; reflexivity).
    apply (NP (length h1) id o m); [|exact Gr|].
    - exists t. split; [|exact Hr]. rewrite Hh, nth_error_app1; [exact Hi|]. eapply nth_lt; eauto.
    - rewrite (epoch_eq (hist c) (length h1) (length (hist c))); [reflexivity|rewrite Hh, app_length; lia|].
      intros j Hj Hn. rewrite Hh in Hn. rewrite nth_error_app2 in Hn by lia.
      destruct (j - length h1) as [|q]; simpl in Hn; [discriminate|]. apply nth_error_In in Hn. contradiction.
  Qed.

  (** at rest without panics there are no gaps *)
  Lemma rest_full c i : execution c -> at_rest (hist c) -> no_growth_panic (hist c) ->
    i < a_len (replay (abs0 l0 m0) (hist c)) -> exists v, a_pos (replay (abs0 l0 m0) (hist c)) i = Has v.
  Proof.
    intros X R N Hi. pose proof (pos_cases c i X) as P.
    destruct (a_pos (replay (abs0 l0 m0) (hist c)) i) as [|id| |v]; [lia| |contradiction|eauto].
    destruct P as (t & o & O). now apply R in O.
  Qed.

  Lemma rest_len c : execution c -> at_rest (hist c) ->
    a_len (replay (abs0 l0 m0) (hist c)) = requested (length l0) (hist c).
  Proof.
    intros X R. destruct (execution_world E ro nl l0 c0 m0 c X) as (snap & g & W).
    pose proof (b_le _ _ _ (w_b _ _ _ _ _ _ _ _ W)) as B. rewrite (rest_run c X R) in B. unfold pends in B. simpl in B.
    pose proof (gi_agree _ _ _ _ _ _ _ _ (w_gi _ _ _ _ _ _ _ _ W)) as A. rewrite (ag_len _ _ A) in B. unfold a0 in B. lia.
  Qed.
End Rest.

Section Len.
  Context {V : Type} (E : env V).
  Lemma shows_lenres o v n tr sI sR : post E o v tr sI sR -> shows o v n -> lenres n tr sI sR.
  Proof.
    destruct o; simpl; try contradiction; destruct v; try contradiction; intros P S.
    - destruct P as (k & Q & _ & L). injection Q as <-. now subst n.
    - destruct P as (k & Q & _ & L). injection Q as Q. destruct S as [-> ->]. symmetry in Q. apply Nat.eqb_eq in Q. now subst k.
    - destruct P as (k & L & Q & _). injection Q as ->. now subst n.
    - destruct P as (k & L & Q & _). injection Q as ->. rewrite seq_length in S. now subst n.
    - destruct P as (k & L & vs & Lv & Q & _). injection Q as ->. now subst.
    - destruct P as (k & L & vs & Lv & Q & _). injection Q as ->. now subst.
    - destruct P as (k & L & vs & us & Lv & Q & _ & Hm). injection Q as ->. apply (f_equal (@length _)) in Hm. rewrite mapn_length, map_length in Hm. congruence.
    - destruct P as (k & L & Hm & Q & _). injection Q as -> ->. simpl in S. subst n. replace (m + (k - m)) with k by lia. assumption.
    - destruct P as (k & L & _ & Q). injection Q as ->. subst n. destruct k; assumption.
    - destruct P as (k & L & _ & Q). injection Q as ->. subst n. destruct k; assumption.
  Qed.
End Len.

Section LenLower.
  Context {V : Type} (E : env V) (ro nl : bool) (l0 : list V) (m0 : nat).
  Context (snap : nat -> shared V) (h : list (event V)).
  Context (X : explained E ro nl l0 m0 snap h) (LE : each busyev h).
  Notation a0 := (abs0 l0 m0).

  Lemma h_lock k id t i o : nth_error h k = Some (EAcc id t (AcSt i RESERVED)) ->
    nth_error h id = Some (EInv id t o) -> self_swap o = false -> busy h id i k.
  Proof.
    intros H Hi Ns. pose proof (LE (firstn k h) _ (skipn (S k) h) (nth_split_firstn h k _ H)) as L. simpl in L.
    destruct L as (id' & t' & o' & O & T & [D|(o2 & O2 & S2)]); [exists id', t', o'; auto|].
    destruct (h_open _ _ _ _ _ _ _ X k id t o2) as (_ & O3 & _); [apply nth_lt in H; lia|assumption|]. congruence.
  Qed.

  Lemma len_miss id t0 o r e n v : nth_error h id = Some (EInv id t0 o) -> self_swap o = false ->
    nth_error h r = Some e -> is_end id e = true ->
    lenres n (accs id (firstn r h)) (snap id) (snap r) ->
    a_pos (before a0 h id) n = Has v -> exists k, id < k < r /\ busy h id n k.
  Proof.
    intros Hid Ns Hr He [_ L] Hv. pose proof (nth_lt _ _ _ Hr) as Lr.
    assert (K : forall x, In x (accs id (firstn r h)) -> exists j t w, id < j < r /\ nth_error h j = Some (EAcc id t x) /\ a_pos (before a0 h j) n = Has w).
    { intros x Hx. destruct (in_accs _ _ _ _ _ _ _ X id r x e Hx Hr He) as (j & t & Hj & Hx' & Hej).
      destruct (h_has _ _ _ _ _ _ _ X id j n v) as (w & Hw); auto; [lia|lia|]. eauto 8. }
    destruct L as [L|[L|(x & Nx & L)]]; destruct (K _ L) as (j & t & w & Hj & Hx & Hw); destruct (h_ev _ _ _ _ _ _ _ X j _ Hx) as (_ & Lg & _); simpl in Lg.
    - destruct Lg as [_ Lg]. specialize (Lg n w Hw). lia.
    - pose proof (h_has_len _ _ _ _ _ _ _ X j n w ltac:(lia) Hw). lia.
    - destruct x; [destruct (Lg w Hw)| |congruence].
      exists j. split; [assumption|]. destruct (h_acc _ _ _ _ _ _ _ X _ _ _ _ Hx) as (o' & _ & Ho & _).
      assert (t = t0) by congruence. subst t. exact (h_lock j id t0 n o Hx Hid Ns).
  Qed.
  Lemma len_lower id t0 o r e n m : nth_error h id = Some (EInv id t0 o) -> self_swap o = false ->
    nth_error h r = Some e -> is_end id e = true ->
    lenres n (accs id (firstn r h)) (snap id) (snap r) ->
    (forall i, i < m -> exists v, a_pos (before a0 h id) i = Has v) ->
    (forall i k, i < m -> id < k < r -> ~ busy h id i k) -> m <= n.
  Proof.
    intros Hid Ns Hr He L F B. destruct (Nat.le_gt_cases m n) as [|Hn]; [assumption|]. exfalso.
    destruct (F n Hn) as (v & Hv). destruct (len_miss id t0 o r e n v Hid Ns Hr He L Hv) as (k & Hk & Bk). exact (B n k Hn Hk Bk).
  Qed.
End LenLower.

Section More.
  Context {V : Type} (E : env V) (ro nl : bool) (l0 : list V) (m0 : nat).
  Context (snap : nat -> shared V) (h : list (event V)).
  Context (X : explained E ro nl l0 m0 snap h).
  Notation a0 := (abs0 l0 m0).

  (** the maximum capacity does not change during a call *)
  Lemma call_max id r k t o : nth_error h id = Some (EInv id t o) -> id <= k <= r -> r <= length h ->
    (forall j e, j < r -> nth_error h j = Some e -> is_end id e = false) -> a_max (before a0 h k) = a_max (before a0 h id).
  Proof.
    intros H1 [H2 H3] Hr N. induction H2 as [|k H2 IH]; [reflexivity|]. rewrite <- IH by lia.
    destruct (nth_error h k) as [e|] eqn:He; [|apply nth_error_None in He; lia].
    rewrite (before_S _ h k e He). destruct e as [| | |id' t' []| |n m]; simpl; try reflexivity.
    destruct (h_ev _ _ _ _ _ _ _ X k _ He) as (W & _). exfalso. simpl in W. apply (W id t o). apply firstn_open; auto.
    - destruct (Nat.eq_dec id k) as [->|]; [|lia]. rewrite H1 in He. discriminate.
    - intros j e Hj. apply N. lia.
  Qed.

  Lemma eff_nil_reads id r e : nth_error h r = Some e -> is_end id e = true ->
    (forall x, In x (eff (accs id (firstn r h))) -> exists i v, x = AcRead i v) -> only_reads id h.
  Proof.
    intros Hr He A x Hx. rewrite (accs_all _ _ _ _ _ _ _ X id r e Hr He) in Hx.
    destruct x; try exact Logic.I; exfalso;
      match type of Hx with In ?x _ => assert (Y : In x (eff (accs id (firstn r h)))) by (unfold eff; apply filter_In; auto) end;
      apply A in Y; destruct Y as (i' & v' & Y); discriminate.
  Qed.

  Lemma ev_value k e i : nth_error h k = Some e -> ~ changes i e -> value (before a0 h (S k)) i = value (before a0 h k) i.
  Proof.
    intros He N. rewrite (before_S _ h k e He). apply value_apply; [assumption|]. intros id t b n ->.
    destruct (value (before a0 h k) i) as [v|] eqn:Hv; [right|now left]. unfold value in Hv.
    destruct (a_pos (before a0 h k) i) as [| | |w] eqn:Hp; try discriminate.
    pose proof (nth_lt _ _ _ He). pose proof (h_has_len _ _ _ _ _ _ _ X k i w ltac:(lia) Hp).
    destruct (h_ev _ _ _ _ _ _ _ X k _ He) as (_ & Lg & _). simpl in Lg. lia.
  Qed.
  Lemma acc_value k id t x i : nth_error h k = Some (EAcc id t x) ->
    match x with AcInit _ _ | AcWrite _ _ _ | AcSwap _ _ _ _ => False | _ => True end ->
    value (before a0 h (S k)) i = value (before a0 h k) i.
  Proof. intros He N. apply (ev_value k _ i He). destruct x; simpl; tauto. Qed.

  (** the accesses of a call in the order of the events *)
  Lemma accs_two id r j k t t' x y : j < k -> k < r -> nth_error h j = Some (EAcc id t x) -> nth_error h k = Some (EAcc id t' y) ->
    exists l1 l2 l3, accs id (firstn r h) = l1 ++ x :: l2 ++ y :: l3.
  Proof.
    intros H1 H2 Hj Hk.
    assert (C1 : firstn r h = firstn k h ++ EAcc id t' y :: skipn (S k) (firstn r h)).
    { rewrite <- (nth_firstn h r k) in Hk by lia. rewrite (nth_split_firstn (firstn r h) k _ Hk) at 1. rewrite firstn_firstn, Nat.min_l by lia. reflexivity. }
    assert (C2 : firstn k h = firstn j h ++ EAcc id t x :: skipn (S j) (firstn k h)).
    { rewrite <- (nth_firstn h k j) in Hj by lia. rewrite (nth_split_firstn (firstn k h) j _ Hj) at 1. rewrite firstn_firstn, Nat.min_l by lia. reflexivity. }
    assert (K : forall u (z : acc V) l, accs id (EAcc id u z :: l) = z :: accs id l) by (intros; unfold accs; simpl; now rewrite Nat.eqb_refl).
    rewrite C1, C2, !accs_app, !K.
    eexists. eexists. eexists. rewrite <- app_assoc. reflexivity.
  Qed.
  Lemma one_of (p : acc V -> bool) id r e x : nth_error h r = Some e -> is_end id e = true -> filter p (accs id (firstn r h)) = [x] ->
    exists k t, id < k < r /\ nth_error h k = Some (EAcc id t x) /\ epoch h k = epoch h id /\
      forall k' t' y, nth_error h k' = Some (EAcc id t' y) -> k' <> k -> p y = false.
  Proof.
    intros Hr He Ef. assert (Hx : In x (filter p (accs id (firstn r h)))) by (rewrite Ef; now left). apply filter_In in Hx. destruct Hx as [Hx Hf].
    destruct (in_accs _ _ _ _ _ _ _ X id r x e Hx Hr He) as (k & t & Hk & Hn & Hep). exists k, t.
    split; [assumption|]. split; [assumption|]. split; [assumption|].
    intros k' t' y Hy N. destruct (p y) eqn:Fy; [|reflexivity]. exfalso.
    pose proof (h_acc_end _ _ _ _ _ _ _ X k' id t' y r e Hy Hr He) as Lk.
    assert (T : exists u v l1 l2 l3, accs id (firstn r h) = l1 ++ u :: l2 ++ v :: l3 /\ p u = true /\ p v = true).
    { destruct (Nat.lt_ge_cases k k').
      - destruct (accs_two id r k k' t t' x y) as (l1 & l2 & l3 & Q); try lia; auto. exists x, y. eauto 8.
      - destruct (accs_two id r k' k t' t y x) as (l1 & l2 & l3 & Q); try lia; auto. exists y, x. eauto 8. }
    destruct T as (u & v & l1 & l2 & l3 & Q & Fu & Fv). rewrite Q in Ef.
    apply (f_equal (@length _)) in Ef. rewrite !filter_app, app_length in Ef. simpl in Ef. rewrite Fu in Ef. simpl in Ef.
    rewrite filter_app, app_length in Ef. simpl in Ef. rewrite Fv in Ef. simpl in Ef. lia.
  Qed.
  Lemma one_eff id r e x : nth_error h r = Some e -> is_end id e = true -> eff (accs id (firstn r h)) = [x] ->
    exists k t, id < k < r /\ nth_error h k = Some (EAcc id t x) /\ epoch h k = epoch h id /\
      forall k' t' y, nth_error h k' = Some (EAcc id t' y) -> k' <> k -> is_eff y = false.
  Proof. apply one_of. Qed.
  Lemma no_eff_value k id t x i : nth_error h k = Some (EAcc id t x) -> is_eff x = false ->
    value (before a0 h (S k)) i = value (before a0 h k) i.
  Proof. intros He N. apply (acc_value k id t x i He). destruct x; simpl in *; try discriminate; exact Logic.I. Qed.
End More.
