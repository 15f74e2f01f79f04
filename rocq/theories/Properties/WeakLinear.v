(** * C44: with the orderings of the code, calls do what they do under sequential consistency.

    [h] is the history of an execution of the release/acquire view machine of [RA/Weak.v]
    ([RA/WTrace.v]); relaxed loads may return old values.  The statements use the vocabulary of
    [Spec.v], [Seq.v] and [Lists.v], as those about the sequentially consistent machine. *)

From Coq Require Import List Arith Bool Lia Permutation.
From Verif.Model Require Import Prog Mem Deps State Elem Vec Excl Machine.
From Verif Require Import Client Spec Seq Lists.
From Verif.Logic Require Import Inv WP Post Specs Ops Sound Shape Clients Hist Facts Visits Lawful Lin Trace.
From Verif.RA Require Import Weak WInv WStep WSpecs WOps WSound WPath WTrace WHist.
From Verif.Properties Require Import C33 Examples Views Weak.
Import ListNotations.
Local Notation before := Spec.before.
Local Notation stores := Seq.stores.
Local Notation stored := Spec.stored.

(** ** Facts about possible histories *)
Section Possible.
  Context {V : Type} (l0 : list V) (m0 : nat) (h : list (event V)) (L : lawful l0 m0 h).
  Notation a0 := (abs0 l0 m0).
  Notation ev k e := (nth_error h k = Some e).
  Lemma p_add k id t b n : ev k (EAcc id t (AcAdd b n)) -> a_len (before a0 h k) = b /\ a_len (before a0 h (S k)) = b + n.
  Proof. intros H. destruct (L k _ H) as [_ Lg]. simpl in Lg. split; [assumption|]. rewrite (before_S a0 h k _ H). simpl. lia. Qed.
  Lemma p_add_order j k id t b n id' t' b' n' : ev j (EAcc id t (AcAdd b n)) -> ev k (EAcc id' t' (AcAdd b' n')) ->
    epoch h j = epoch h k -> j < k -> b + n <= b'.
  Proof.
    intros H1 H2 He Lt. destruct (p_add j _ _ _ _ H1) as [_ <-]. destruct (p_add k _ _ _ _ H2) as [<- _].
    apply (l_len l0 m0 h); [lia|apply nth_lt in H2; lia|]. rewrite (epoch_S h j _ H1). simpl. lia.
  Qed.
  Lemma p_init_has j id t i v : ev j (EAcc id t (AcInit i v)) -> a_pos (before a0 h (S j)) i = Has v.
  Proof. intros H. rewrite (before_S _ h j _ H). simpl. apply upd_same. Qed.
  Lemma p_init_once j j' id id' t t' i v v' : ev j (EAcc id t (AcInit i v)) -> ev j' (EAcc id' t' (AcInit i v')) ->
    epoch h j = epoch h j' -> j = j'.
  Proof.
    assert (K : forall j j' id id' t t' i v v', ev j (EAcc id t (AcInit i v)) -> ev j' (EAcc id' t' (AcInit i v')) ->
      epoch h j = epoch h j' -> ~ j < j').
    { clear j j' id id' t t' i v v'. intros j j' id id' t t' i v v' H1 H2 He Lt. pose proof (p_init_has _ _ _ _ _ H1) as Hv.
      destruct (l_has l0 m0 h L (S j) j' i v) as (w & Hw); auto.
      - apply nth_lt in H2. lia.
      - rewrite (epoch_S h j _ H1). simpl. lia.
      - destruct (L j' _ H2) as (_ & Lg). simpl in Lg. congruence. }
    intros H1 H2 He. pose proof (K _ _ _ _ _ _ _ _ _ H1 H2 He). pose proof (K _ _ _ _ _ _ _ _ _ H2 H1 (eq_sym He)). lia.
  Qed.
  Lemma p_value_keep j k i v : j <= k -> k <= length h -> epoch h j = epoch h k -> untouched h i j k ->
    value (before a0 h j) i = Some v -> value (before a0 h k) i = Some v.
  Proof.
    intros H. induction H as [|k H IH]; intros Hk He U Hv; [assumption|].
    destruct (nth_error h k) as [e|] eqn:Hn; [|apply nth_error_None in Hn; lia].
    assert (He' : epoch h j = epoch h k) by (pose proof (epoch_mono h j k ltac:(lia)); pose proof (epoch_mono h k (S k) ltac:(lia)); lia).
    specialize (IH ltac:(lia) He' ltac:(intros q x Hq; apply U; lia) Hv). specialize (U k e ltac:(lia) Hn).
    rewrite <- IH. apply (l_value l0 m0 h L k e i Hn). pose proof (epoch_S h k e Hn) as Es. destruct (L k e Hn) as [_ Lg].
    destruct e as [| | |id t x| |]; simpl in *; auto; [destruct x; simpl in *; auto|lia].
    intros ->. unfold value in IH. rewrite Lg in IH. discriminate.
  Qed.
End Possible.

(** A [get_cloned] or [get_copied] that returned [None]: it may not have seen an element that is there. *)
Definition missed {V} (o : op V) (x : outc V) : bool :=
  match o, x with
  | OGetCloned _, Returns (ROptVal None) | OGetCopied _, Returns (ROptVal None) => true
  | _, _ => false
  end.

(** What the calls did, from [wpost]. *)
Section Calls.
  Context {V : Type} (E : env V).
  Lemma wpost_grows o v tr : wpost E o v tr -> grows o = true ->
    exists b vs, v = RNat b /\ supplies o b vs /\ length vs = request o /\ eff tr = AcAdd b (request o) :: inits b vs.
  Proof.
    destruct o; try discriminate; intros P _; simpl in *.
    - destruct P as (b & -> & _ & Ef). exists b, [v0]. auto.
    - destruct P as (b & w & Hf & -> & _ & Ef). exists b, [w]. split; [reflexivity|]. split; [now exists w|auto].
    - destruct P as (b & vs & Hf & -> & Hl & Ef). exists b, vs. auto.
    - destruct P as (b & it & vs & Hf & Hv & -> & Hl & Ef). exists b, vs. split; [reflexivity|]. split; [now exists it|auto].
    - destruct P as (b & vs & Hf & -> & Hl & Ef). exists b, vs. auto.
  Qed.
  Lemma wpost_reads o q v tr : wpost E o v tr -> method o = Some q -> reads_all q = true -> (forall l, q <> SEqList l) ->
    exists a n, b_of E q a n v tr /\ match o with OSl x _ => a = sl_a x /\ n = sl_len x | _ => a = 0 end.
  Proof.
    destruct o; simpl; try discriminate; intros P [= <-]; simpl; try discriminate; intros Rq Nq;
      try (destruct P as (n & B); exists 0, n; auto; fail); try (exfalso; eapply Nq; reflexivity).
    destruct o; try discriminate; try (exfalso; eapply Nq; reflexivity); exists (sl_a x), (sl_len x); auto.
  Qed.
  Lemma wpost_inst o v tr : wpost E o v tr -> atomic o = true -> missed o (Returns v) = false -> inst E (fun _ _ => False) o (Returns v) tr.
  Proof.
    destruct o; try discriminate; simpl; intros P At Mi; auto.
    - destruct P as (b & -> & _ & Ef). eauto.
    - destruct P as (b & w & Hf & -> & _ & Ef). eauto 6.
    - destruct P as [P|[-> _]]; [auto|discriminate].
    - destruct P as [P|[-> _]]; [auto|discriminate].
    - destruct o; try discriminate; simpl in *; auto.
  Qed.
End Calls.

(** ** Theorems *)
Section C44.
  Context {V : Type} (E : env V) (ro : bool) (l0 : list V) (c0 m0 : nat) (c : wcfg V).
  Notation a0 := (abs0 l0 m0).

  (** Every execution has a history. *)
  Theorem C44_history : wexecution E ro l0 c0 m0 c <-> exists h, whistory E ro l0 c0 m0 c h.
  Proof. split; [apply execution_whistory|]. intros (h & H). eapply whistory_execution; eauto. Qed.

  Context (h : list (event V)) (X : whistory E ro l0 c0 m0 c h).

  (** The history is one of the abstract vector: threads make one call at a time, each position is handed
      out once, gets its first value from the call it was handed to, and every read, replaced or
      exchanged value is the current one. *)
  Theorem C44_legal : each (fun h1 e => well_formed h1 e /\ legal (replay a0 h1) e) h.
  Proof.
    intros h1 e h2 Hh. destruct (whistory_TI _ _ _ _ _ _ _ X) as (cur & T). destruct (ti_law _ _ _ _ _ _ T (length h1) e) as [W Lg].
    { rewrite Hh, nth_error_app2, Nat.sub_diag by lia. reflexivity. }
    unfold before in Lg. rewrite Hh in W, Lg. rewrite firstn_app, Nat.sub_diag, firstn_all, firstn_O, app_nil_r in W, Lg. auto.
  Qed.
  (** What is in memory: the values and the number of positions handed out. *)
  Theorem C44_memory : a_len (replay a0 h) = Weak.latest (m_resv (w_mem c)) /\ (forall i, value (replay a0 h) i = wv (m_slots (w_mem c) i)) /\
    a_max (replay a0 h) = m_max (w_mem c).
  Proof. destruct (whistory_TI _ _ _ _ _ _ _ X) as (cur & T). destruct (ti_ag _ _ _ _ _ _ T) as [A B C]. auto. Qed.
  (** The results of the calls, as the threads see them ([C40_*]), are those in the history. *)
  Theorem C44_calls :
    (forall o v, (exists q, In q (w_res c) /\ r_op q = o /\ r_ret q = v) <-> exists id r, returned h id r o v /\ epoch h r = epoch h (length h)) /\
    (forall o m, (exists id, In (id, o, m) (w_panics c)) <-> exists id r, panicked h id r o m /\ epoch h r = epoch h (length h)).
  Proof. destruct (whistory_TI _ _ _ _ _ _ _ X) as (cur & T). split; [apply (ti_rets _ _ _ _ _ _ T)|apply (ti_pans _ _ _ _ _ _ T)]. Qed.

  (** *** Growth (C01, C02, C04) *)
  Lemma grew_at id r b n : grew h id r b n -> exists j t, id < j < r /\ epoch h j = epoch h id /\ nth_error h j = Some (EAcc id t (AcAdd b n)).
  Proof.
    intros (o & R & Gr & Rq). destruct (whistory_TI _ _ _ _ _ _ _ X) as (cur & T). pose proof (ti_law _ _ _ _ _ _ T) as L.
    destruct (wpost_grows E o _ _ (ti_ret _ _ _ _ _ _ T _ _ _ _ R) Gr) as (b' & vs & Q & _ & _ & Ef). injection Q as <-. rewrite Rq in Ef.
    assert (Hin : In (AcAdd b n) (eff (accs id (firstn r h)))) by (rewrite Ef; now left). apply filter_In in Hin. destruct Hin as [Hin _].
    destruct R as (t & _ & R). destruct (l_in_accs l0 m0 h L id r _ _ Hin R (Nat.eqb_refl id)) as (j & u & Hj & Hx & He). eauto.
  Qed.
  Theorem C44_disjoint id1 r1 b1 n1 id2 r2 b2 n2 :
    grew h id1 r1 b1 n1 -> grew h id2 r2 b2 n2 -> id1 <> id2 -> epoch h id1 = epoch h id2 ->
    b1 + n1 <= b2 \/ b2 + n2 <= b1.
  Proof.
    intros G1 G2 N He. destruct (whistory_TI _ _ _ _ _ _ _ X) as (cur & T). pose proof (ti_law _ _ _ _ _ _ T) as L.
    destruct (grew_at _ _ _ _ G1) as (j1 & t1 & _ & A2 & A3). destruct (grew_at _ _ _ _ G2) as (j2 & t2 & _ & B2 & B3).
    destruct (Nat.lt_trichotomy j1 j2) as [Lt|[Lt|Lt]].
    - left. apply (p_add_order l0 m0 h L j1 j2 _ _ _ _ _ _ _ _ A3 B3); [congruence|assumption].
    - subst j2. rewrite A3 in B3. injection B3. intros. now destruct N.
    - right. apply (p_add_order l0 m0 h L j2 j1 _ _ _ _ _ _ _ _ B3 A3); [congruence|assumption].
  Qed.
  Theorem C44_order id1 r1 b1 n1 id2 r2 b2 n2 :
    grew h id1 r1 b1 n1 -> grew h id2 r2 b2 n2 -> r1 < id2 -> epoch h id1 = epoch h id2 -> b1 + n1 <= b2.
  Proof.
    intros G1 G2 N He. destruct (whistory_TI _ _ _ _ _ _ _ X) as (cur & T). pose proof (ti_law _ _ _ _ _ _ T) as L.
    destruct (grew_at _ _ _ _ G1) as (j1 & t1 & A1 & A2 & A3). destruct (grew_at _ _ _ _ G2) as (j2 & t2 & B1 & B2 & B3).
    apply (p_add_order l0 m0 h L j1 j2 _ _ _ _ _ _ _ _ A3 B3); [congruence|lia].
  Qed.
  Theorem C44_stored id r o v : returned h id r o v -> grows o = true ->
    exists b vs, v = RNat b /\ supplies o b vs /\ length vs = request o /\ stored id h = combine (seq b (request o)) vs.
  Proof.
    intros R Gr. destruct (whistory_TI _ _ _ _ _ _ _ X) as (cur & T). pose proof (ti_law _ _ _ _ _ _ T) as L.
    destruct (wpost_grows E o _ _ (ti_ret _ _ _ _ _ _ T _ _ _ _ R) Gr) as (b & vs & -> & Sp & Lv & Ef). exists b, vs. repeat (split; [assumption||reflexivity|]).
    destruct R as (t & _ & R). rewrite stored_eff, (l_accs_all l0 m0 h L id r _ R (Nat.eqb_refl id)), Ef. simpl. now rewrite keep_inits_inits, Lv.
  Qed.
  Theorem C44_once j1 j2 id1 id2 t1 t2 i v1 v2 :
    nth_error h j1 = Some (EAcc id1 t1 (AcInit i v1)) -> nth_error h j2 = Some (EAcc id2 t2 (AcInit i v2)) ->
    epoch h j1 = epoch h j2 -> j1 = j2.
  Proof.
    destruct (whistory_TI _ _ _ _ _ _ _ X) as (cur & T). exact (p_init_once l0 m0 h (ti_law _ _ _ _ _ _ T) j1 j2 id1 id2 t1 t2 i v1 v2).
  Qed.
  (** The value is in memory, unless overwritten, as long as the vector is not cleared. *)
  Theorem C44_kept id r o b vs k v : returned h id r o (RNat b) -> grows o = true -> supplies o b vs ->
    nth_error vs k = Some v -> epoch h id = epoch h (length h) -> untouched h (b + k) id (length h) ->
    wv (m_slots (w_mem c) (b + k)) = Some v.
  Proof.
    intros R Gr Sp Hv He U. destruct (whistory_TI _ _ _ _ _ _ _ X) as (cur & T). pose proof (ti_law _ _ _ _ _ _ T) as L.
    destruct (C44_stored id r o _ R Gr) as (b' & vs' & Q & Sp' & Lv & St). injection Q as <-. rewrite (supplies_fun o b vs vs' Sp Sp') in Hv.
    assert (Hin : In (b + k, v) (stored id h)).
    { rewrite St, <- Lv. apply combine_seq_in. pose proof (nth_lt _ _ _ Hv). split; [lia|]. replace (b + k - b) with k by lia. exact Hv. }
    apply stored_in in Hin. destruct Hin as (q & u & Hq). pose proof (nth_lt _ _ _ Hq) as Lq.
    destruct (l_acc l0 m0 h L q id u _ Hq) as (o3 & Q1 & _ & Q3 & _).
    destruct (C44_memory) as (_ & Mv & _). rewrite <- Mv, <- (before_all a0 h (length h)) by lia.
    apply (p_value_keep l0 m0 h L (S q) (length h)); [lia|lia| | |].
    - rewrite (epoch_S h q _ Hq). simpl. lia.
    - intros j e Hj. apply U. lia.
    - unfold value. now rewrite (p_init_has l0 m0 h q _ _ _ _ Hq).
  Qed.
  (** Nothing is lost (C03): when nobody is inside a call and no growth call panicked, every position handed out has a value. *)
  Theorem C44_lossless i : at_rest h -> no_growth_panic h -> i < a_len (replay a0 h) -> exists v, wv (m_slots (w_mem c) i) = Some v.
  Proof.
    intros R N Hi. destruct (whistory_TI _ _ _ _ _ _ _ X) as (cur & T). pose proof (ti_law _ _ _ _ _ _ T) as L.
    destruct C44_memory as (_ & Mv & _). rewrite <- Mv. unfold value. destruct (a_pos (replay a0 h) i) as [|id| |v] eqn:Hp; [| | |simpl; eauto]; exfalso.
    - clear R N T Mv.
      assert (K : forall k, k <= length h -> i < a_len (before a0 h k) -> a_pos (before a0 h k) i <> Unreserved).
      { induction k as [|k IH]; intros Hk Hl.
        - unfold before in *. simpl in *. destruct (nth_error l0 i) eqn:Q; [discriminate|]. apply nth_error_None in Q. lia.
        - destruct (nth_error h k) as [e|] eqn:He; [|apply nth_error_None in He; lia]. specialize (IH ltac:(lia)). destruct (L k e He) as [_ Lg].
          rewrite (before_S a0 h k e He) in Hl |- *. destruct e as [|?|? ? ?|? ? x| |]; simpl in *; auto.
          + intros Q. destruct (a_pos (before a0 h k) i) eqn:P; try discriminate; [now apply IH|]. destruct (Nat.eqb _ _); discriminate.
          + destruct x as [b n|j v|j v|j old v|j j' v w|j x|n|n]; simpl in *; auto.
            * unfold in_range. destruct (Nat.leb_spec b i), (Nat.ltb_spec i (b + n)); simpl; try discriminate; apply IH; lia.
            * unfold upd. destruct (Nat.eqb _ _); [discriminate|auto].
            * unfold upd. destruct (Nat.eqb _ _); [discriminate|auto].
            * unfold upd. destruct (Nat.eqb _ _); [discriminate|]. destruct (Nat.eqb _ _); [discriminate|auto].
          + lia. }
      apply (K (length h) (le_n _)); rewrite before_all by lia; assumption.
    - destruct (ti_resv _ _ _ _ _ _ T i id Hp) as (t & x & b & vs & Lk & <- & _). destruct (ti_run _ _ _ _ _ _ T t x Lk) as (O & _). exact (R _ _ _ O).
    - apply abandoned_from in Hp.
      2:{ destruct (start_pos l0 m0 i) as [Y|[v Y]]; rewrite Y; discriminate. }
      destruct Hp as (h1 & id & t & m & h2 & Hh & Hc & Hr). apply reserved_from in Hr.
      2:{ intros j. destruct (start_pos l0 m0 i) as [Y|[v Y]]; rewrite Y; discriminate. }
      destruct Hr as (h3 & t' & b & n & h4 & H1 & _ & Hb).
      assert (Hq : nth_error h (length h3) = Some (EAcc id t' (AcAdd b n))) by (rewrite Hh, H1, <- app_assoc, nth_error_app2, Nat.sub_diag by lia; reflexivity).
      destruct (ti_src _ _ _ _ _ _ T _ _ _ _ Hq) as (o & Co & Gr & _).
      assert (Hr : nth_error h (length h1) = Some (EPan id t m)) by (rewrite Hh, nth_error_app2, Nat.sub_diag by lia; reflexivity).
      apply (N (length h1) id o m).
      + destruct (l_end l0 m0 h L (length h1) id _ Hr (Nat.eqb_refl id)) as (t2 & o2 & _ & Ho & _ & _ & [[v Q]|[m' Q]]); [discriminate|]. injection Q as <- <-.
        destruct Co as (t3 & Co). rewrite Ho in Co. injection Co as <- <-. exists t. auto.
      + assumption.
      + rewrite Hh. unfold epoch. rewrite firstn_app, firstn_all, Nat.sub_diag, firstn_O, app_nil_r, firstn_all. rewrite filter_app. cbn [filter is_clear].
        assert (Q : filter is_clear h2 = []). { clear - Hc. induction h2 as [|e h2 IH]; [reflexivity|]. simpl. destruct e; simpl; try (apply IH; intros Hin; apply Hc; now right). exfalso. apply Hc. now left. }
        rewrite Q, app_nil_r. reflexivity.
  Qed.

  (** *** Element operations (C11, C12) *)
  Lemma point_at id r o x : ended h id r o x -> atomic o = true -> missed o x = false -> exists k, point E l0 m0 h id o x r k.
  Proof.
    intros En At Mi. destruct (whistory_TI _ _ _ _ _ _ _ X) as (cur & T). pose proof (ti_law _ _ _ _ _ _ T) as L.
    apply (point_exists E l0 m0 h L (fun _ _ => False) id r o x En At); [|tauto]. destruct x as [v|m].
    - apply wpost_inst; auto. exact (ti_ret _ _ _ _ _ _ T id r o v En).
    - pose proof (ti_pan _ _ _ _ _ _ T id r o m En) as P. destruct o; try discriminate; simpl in *; auto.
      + destruct P as (b & Ef & [[-> _]|[-> Hf]]); eauto 6.
      + destruct o; try discriminate; contradiction.
  Qed.
  Theorem C44_instant id r o x : ended h id r o x -> atomic o = true -> missed o x = false -> exists k, id < k <= r /\
    sem (eqv E) o x (value (before a0 h k)) (value (before a0 h (S k))) /\
    forall k' t y, nth_error h k' = Some (EAcc id t y) -> is_effect y = true -> k' = k.
  Proof.
    intros En At Mi. destruct (point_at id r o x En At Mi) as (k & [P1 _ P3 P4]). exists k. auto.
  Qed.
  (** Apart from the calls of [get_cloned] and [get_copied] that returned [None], every execution at rest has a linearization. *)
  Theorem C44_linearizable : at_rest h ->
    exists lin, linearization_of (eqv E) (fun o x => atomic o && negb (missed o x)) h lin (value a0) (value (replay a0 h)).
  Proof.
    intros R. destruct (whistory_TI _ _ _ _ _ _ _ X) as (cur & T). pose proof (ti_law _ _ _ _ _ _ T) as L.
    apply (linearized_of E l0 m0 h L).
    - intros o x H. now apply andb_prop in H.
    - intros id r o x En At H (y & Hy & Fy). rewrite At in H. simpl in H. apply negb_false_iff in H.
      assert (Q : wpost E o (ROptVal None) (accs id (firstn r h)) /\ nth_error h r = Some (ERet id (match nth_error h id with Some (EInv _ t _) => t | _ => 0 end) (ROptVal None))).
      { destruct o; try discriminate; destruct x as [[]|]; try discriminate; destruct o; try discriminate; split;
          try exact (ti_ret _ _ _ _ _ _ T _ _ _ _ En); destruct En as (t' & E1 & E2); rewrite E1; exact E2. }
      destruct Q as [Q Hr]. assert (In y (eff (accs id (firstn r h)))) as Hin.
      { apply filter_In. split; [now rewrite <- (l_accs_all l0 m0 h L id r _ Hr (Nat.eqb_refl id))|destruct y; try discriminate; reflexivity]. }
      assert (Ef : eff (accs id (firstn r h)) = []) by (destruct o; try discriminate; destruct Q as [(w & Q & _)|[_ Q]]; [discriminate|exact Q|discriminate|exact Q]).
      rewrite Ef in Hin. destruct Hin.
    - intros id r o x En H. apply andb_prop in H. destruct H as [H1 H2]. apply negb_true_iff in H2. now apply point_at.
    - intros id t o O. destruct (R id t o O).
  Qed.
  (** No update is lost. *)
  Theorem C44_counter i v f : at_rest h -> nth_error l0 i = Some v -> ~ In EClear h ->
    (forall id o old new, called h id o -> replaces o i old new -> o = OElem i (EUpdate f)) ->
    (forall id o j k, called h id o -> exchanges o j k -> j <> i /\ k <> i) ->
    value (replay a0 h) i = Some (times (update_calls i h) (fun u => fst (f u)) v).
  Proof.
    destruct (whistory_TI _ _ _ _ _ _ _ X) as (cur & T). apply (counted l0 m0 h (ti_law _ _ _ _ _ _ T)).
    - apply (ti_src _ _ _ _ _ _ T).
    - intros id r j f' x R. destruct x as [w|m].
      + pose proof (ti_ret _ _ _ _ _ _ T id r _ w R) as (old & _ & Ef & _). eauto.
      + pose proof (ti_pan _ _ _ _ _ _ T id r _ m R) as (_ & old & Ef & _). eauto.
  Qed.
  (** No value is lost or duplicated; each change is one that the arguments of a call ask for; ... *)
  Theorem C44_conserved : Permutation (l0 ++ put_in h) (contents (replay a0 h) ++ taken_out a0 h).
  Proof.
    destruct (whistory_TI _ _ _ _ _ _ _ X) as (cur & T).
    pose proof (conserved_at l0 m0 h (ti_law _ _ _ _ _ _ T) (length h) (le_n _)) as P. rewrite firstn_all, before_all in P by lia. exact P.
  Qed.
  Theorem C44_source k id t x : nth_error h k = Some (EAcc id t x) -> exists o, called h id o /\ source o x.
  Proof. destruct (whistory_TI _ _ _ _ _ _ _ X) as (cur & T). apply (ti_src _ _ _ _ _ _ T). Qed.
  (** ... and the value of an element is the last one stored. *)
  Theorem C44_latest k i v : k <= length h -> value (before a0 h k) i = Some v ->
    (nth_error l0 i = Some v /\ forall q e w, q < k -> nth_error h q = Some e -> ~ stores i w e /\ e <> EClear) \/
    exists j e, j < k /\ nth_error h j = Some e /\ stores i v e /\
      forall q e' w, j < q < k -> nth_error h q = Some e' -> ~ stores i w e' /\ e' <> EClear.
  Proof. destruct (whistory_TI _ _ _ _ _ _ _ X) as (cur & T). apply (Trace.latest l0 m0 h (ti_law _ _ _ _ _ _ T)). Qed.

  (** *** Methods that go over the elements (C24, C28, C29) *)
  Theorem C44_reads id r o q v : returned h id r o v -> method o = Some q -> reads_all q = true -> (forall l, q <> SEqList l) -> exists a n,
    match o with OSl x _ => a = sl_a x /\ n = sl_len x | _ => a = 0 end /\
    visited id h = seq a (length (read_vals id h)) /\ written_vals id h = [] /\
    length (read_vals id h) <= n /\ (stops_early q = false -> length (read_vals id h) = n) /\
    forall ws, length ws = n -> firstn (length (read_vals id h)) ws = read_vals id h -> list_result (eqv E) q a ws = Some v.
  Proof.
    intros R M Rq Nq. destruct (whistory_TI _ _ _ _ _ _ _ X) as (cur & T). pose proof (ti_law _ _ _ _ _ _ T) as L.
    destruct (wpost_reads E o q v _ (ti_ret _ _ _ _ _ _ T _ _ _ _ R) M Rq Nq) as (a & n & B & C). destruct R as (t & R1 & R2).
    destruct (b_result E q a n v _ B) as (vs & Ef & L1 & L2 & Rs).
    destruct (of_reads id h a vs) as (V1 & V2 & V3). { rewrite (l_accs_all l0 m0 h L id r _ R2 (Nat.eqb_refl id)). exact Ef. }
    exists a, n. rewrite V1, V2, V3. auto 8.
  Qed.
  Theorem C44_eq id r o l : returned h id r o (RBool true) -> method o = Some (SEqList l) ->
    visited id h = seq (match o with OSl x _ => sl_a x | _ => 0 end) (length l) /\ written_vals id h = [] /\
    Forall2 (fun x y => eqv E x y = true) (read_vals id h) l.
  Proof.
    intros R M. destruct (whistory_TI _ _ _ _ _ _ _ X) as (cur & T). pose proof (ti_law _ _ _ _ _ _ T) as L.
    pose proof (ti_ret _ _ _ _ _ _ T _ _ _ _ R) as P. destruct R as (t & R1 & R2).
    assert (Q : exists n, w_eq E l (match o with OSl x _ => sl_a x | _ => 0 end) n (RBool true) (accs id (firstn r h))).
    { destruct o; try discriminate; simpl in M; injection M as ->; simpl in P; [exact P|]. eauto. }
    destruct Q as (n & vs & b & Q & Ef & _ & _ & B). injection Q as <-. destruct B as (-> & B1 & B2).
    destruct (of_reads id h (match o with OSl x _ => sl_a x | _ => 0 end) vs) as (V1 & V2 & V3). { rewrite (l_accs_all l0 m0 h L id r _ R2 (Nat.eqb_refl id)). exact Ef. }
    rewrite V1, V2, V3, B1. auto.
  Qed.
  (** Every value read was the value of that position at some moment during the call. *)
  Theorem C44_values id r o v k t i w : returned h id r o v -> nth_error h k = Some (EAcc id t (AcRead i w)) ->
    id < k < r /\ value (before a0 h k) i = Some w.
  Proof.
    intros R Hk. destruct (whistory_TI _ _ _ _ _ _ _ X) as (cur & T). pose proof (ti_law _ _ _ _ _ _ T) as L. destruct R as (t' & _ & R).
    destruct (l_acc l0 m0 h L k id t _ Hk) as (o' & H1 & _). pose proof (l_acc_end l0 m0 h L k id t _ r _ Hk R (Nat.eqb_refl id)).
    split; [lia|]. destruct (L k _ Hk) as [_ Lg]. simpl in Lg. unfold value. now rewrite Lg.
  Qed.
  Theorem C44_fill id r o v w : returned h id r o v -> method o = Some (SFill w) -> exists a n,
    match o with OSl x _ => a = sl_a x /\ n = sl_len x | _ => a = 0 end /\
    v = RUnit /\ visited id h = seq a n /\ read_vals id h = [] /\ map snd (written_vals id h) = repeat w n.
  Proof.
    intros R M. destruct (whistory_TI _ _ _ _ _ _ _ X) as (cur & T). pose proof (ti_law _ _ _ _ _ _ T) as L.
    pose proof (ti_ret _ _ _ _ _ _ T _ _ _ _ R) as P. destruct R as (t & R1 & R2).
    assert (Q : exists a n, b_fill w a n v (accs id (firstn r h)) /\ match o with OSl x _ => a = sl_a x /\ n = sl_len x | _ => a = 0 end).
    { destruct o; try discriminate; simpl in P; simpl in M; injection M as ->; [destruct P as (n & B); exists 0, n; auto|]. simpl in P. exists (sl_a x), (sl_len x). auto. }
    destruct Q as (a & n & (olds & Ln & -> & Ef) & C).
    destruct (of_writes id h a (map (fun o => (o, w)) olds)) as (V1 & V2 & V3). { rewrite (l_accs_all l0 m0 h L id r _ R2 (Nat.eqb_refl id)). exact Ef. }
    exists a, n. rewrite V1, V2, V3, map_length, Ln. repeat split; auto. rewrite map_map. simpl. subst n. clear. induction olds; simpl; [reflexivity|]. now f_equal.
  Qed.
  Theorem C44_fill_with id r o v f : returned h id r o v -> method o = Some (SFillWith f) -> exists a n,
    match o with OSl x _ => a = sl_a x /\ n = sl_len x | _ => a = 0 end /\
    v = RUnit /\ visited id h = seq a n /\ read_vals id h = [] /\ map Some (map snd (written_vals id h)) = map f (seq 0 n).
  Proof.
    intros R M. destruct (whistory_TI _ _ _ _ _ _ _ X) as (cur & T). pose proof (ti_law _ _ _ _ _ _ T) as L.
    pose proof (ti_ret _ _ _ _ _ _ T _ _ _ _ R) as P. destruct R as (t & R1 & R2).
    assert (Q : exists a n, b_fill_with f a n v (accs id (firstn r h)) /\ match o with OSl x _ => a = sl_a x /\ n = sl_len x | _ => a = 0 end).
    { destruct o; try discriminate; simpl in P; simpl in M; injection M as ->; [destruct P as (n & B); exists 0, n; auto|]. simpl in P. exists (sl_a x), (sl_len x). auto. }
    destruct Q as (a & n & (ps & Ln & -> & Ef & F) & C).
    destruct (of_writes id h a ps) as (V1 & V2 & V3). { rewrite (l_accs_all l0 m0 h L id r _ R2 (Nat.eqb_refl id)). exact Ef. }
    exists a, n. rewrite V1, V2, V3, Ln. repeat split; auto. subst n. now apply closure_values.
  Qed.
End C44.

(** ** Concrete executions: as in [Properties/Weak.v], with their history *)
Section Play.
  Context {V : Type} (E : env V) (ro : bool).
  Definition hgo (s : wcfg V * list (event V) * (nat -> nat)) (l : wlabel V) : option (wcfg V * list (event V) * (nat -> nat)) :=
    let '(c, h, cur) := s in
    match wgo E ro c l with Some c' => Some (c', h ++ wevents E (length h) cur c l, wcur (length h) cur l) | None => None end.
  Fixpoint hmore (n : nat) (s : wcfg V * list (event V) * (nat -> nat)) (t : nat) : option (wcfg V * list (event V) * (nat -> nat)) :=
    match n, wlookup t (w_run (fst (fst s))) with
    | S n', Some _ => match hgo s (WStep t (fresh (fst (fst s)) t)) with Some s' => hmore n' s' t | None => None end
    | _, _ => Some s
    end.
  Fixpoint hplay (s : wcfg V * list (event V) * (nat -> nat)) (p : list (witem V)) : option (wcfg V * list (event V) * (nat -> nat)) :=
    match p with
    | [] => Some s
    | Wl l :: p' => match hgo s l with Some s' => hplay s' p' | None => None end
    | Go t n :: p' => match hmore n s t with Some s' => hplay s' p' | None => None end
    end.
  Definition traced (c0 : wcfg V) (s : wcfg V * list (event V) * (nat -> nat)) : Prop := wtrace E ro c0 (fst (fst s)) (snd (fst s)) (snd s).
  Lemma hgo_trace c0 s l s' : traced c0 s -> hgo s l = Some s' -> traced c0 s'.
  Proof.
    destruct s as [[c h] cur]. unfold hgo, wgo. intros R. destruct (wokb E ro c l) eqn:O; [|discriminate]. destruct (wstep E c l) eqn:St; try discriminate.
    intros [= <-]. eapply wt_step; eauto. now apply wokb_client.
  Qed.
  Lemma hmore_trace t n : forall c0 s s', traced c0 s -> hmore n s t = Some s' -> traced c0 s'.
  Proof.
    induction n as [|n IH]; intros c0 s s' R; cbn [hmore]; [now intros [= <-]|]. destruct (wlookup t _); [|now intros [= <-]].
    destruct (hgo s _) as [d|] eqn:G; [|discriminate]. apply IH. eapply hgo_trace; eauto.
  Qed.
  Lemma hplay_trace p : forall c0 s s', traced c0 s -> hplay s p = Some s' -> traced c0 s'.
  Proof.
    induction p as [|[l|t n] p IH]; intros c0 s s' R; cbn [hplay]; [now intros [= <-]| |].
    - destruct (hgo s l) as [d|] eqn:G; [|discriminate]. apply IH. eapply hgo_trace; eauto.
    - destruct (hmore n s t) as [d|] eqn:G; [|discriminate]. apply IH. eapply hmore_trace; eauto.
  Qed.
End Play.
Definition hex (ro : bool) (l0 : list nat) (p : list (witem nat)) := hplay ex ro (wstart l0 2 8, [], fun _ => 0) p.
Definition hcfg (ro : bool) (l0 : list nat) (p : list (witem nat)) : wcfg nat := match hex ro l0 p with Some s => fst (fst s) | None => wstart l0 2 8 end.
Definition hevs (ro : bool) (l0 : list nat) (p : list (witem nat)) : list (event nat) := match hex ro l0 p with Some s => snd (fst s) | None => [] end.
Definition hpossible (ro : bool) (l0 : list nat) (p : list (witem nat)) : bool := (length l0 <=? 2) && match hex ro l0 p with Some _ => true | None => false end.
Lemma hex_history ro l0 p : hpossible ro l0 p = true -> whistory ex ro l0 2 8 (hcfg ro l0 p) (hevs ro l0 p).
Proof.
  unfold hpossible, hcfg, hevs, hex. rewrite andb_true_iff, Nat.leb_le. intros [H G]. destruct (hplay ex ro (wstart l0 2 8, [], fun _ => 0) p) as [s|] eqn:P; [|discriminate].
  assert (2 < wmod ex) by (apply Nat.ltb_lt; vm_compute; reflexivity). split; [exact ex_ok|]. split; [exact ex_cap|]. split; [assumption|]. split; [lia|]. exists (snd s).
  eapply hplay_trace; [|exact P]. apply wt_start.
Qed.

(** A push and an [extend_n_items] at the same time, two updates of one element at the same time, and a clone of the vector. *)
Definition plus (n x : nat) : nat * bool := (n + x, true).
Definition hp : list (witem nat) :=
  [Wl (WInv 1 (OPush 7) 0); Wl (WInv 2 (OExtendN [Some 1; Some 2; Some 3] 3) 0); Go 2 1; Go 1 1; Go 2 100; Go 1 100; Wl (WSync 3 1); Wl (WSync 3 2)] ++
  wcalls 3 (OGet 0) 0 ++ [Wl (WInv 3 (OElem 0 (EUpdate (plus 10))) 2); Wl (WInv 1 (OElem 0 (EUpdate (plus 10))) 2); Go 3 2; Go 1 3; Go 3 100; Go 1 100] ++ wcalls 3 OIterCloned 0.
Definition hpe : list (event nat) := [EInv 0 1 (OPush 7); EInv 1 2 (OExtendN [Some 1; Some 2; Some 3] 3);
  EAcc 1 2 (AcAdd 1 3); EAcc 0 1 (AcAdd 4 1); EAcc 1 2 (AcInit 1 1); EAcc 1 2 (AcInit 2 2);
  EAcc 1 2 (AcInit 3 3); ERet 1 2 (RNat 1); EAcc 0 1 (AcInit 4 7); ERet 0 1 (RNat 4);
  EInv 10 3 (OGet 0); ERet 10 3 (ROptElem (Some 0));
  EInv 12 3 (OElem 0 (EUpdate (plus 10))); EInv 13 1 (OElem 0 (EUpdate (plus 10))); EAcc 12 3 (AcWrite 0 5 15); ERet 12 3 RUnit; EAcc 13 1 (AcWrite 0 15 25); ERet 13 1 RUnit;
  EInv 18 3 OIterCloned; EAcc 18 3 (AcRead 0 25); EAcc 18 3 (AcRead 1 1); EAcc 18 3 (AcRead 2 2); EAcc 18 3 (AcRead 3 3); EAcc 18 3 (AcRead 4 7); ERet 18 3 (RVals [25; 1; 2; 3; 7])].
Example C44_example : exists c, whistory ex false [5] 2 8 c hpe /\ answers c = [RNat 1; RNat 4; ROptElem (Some 0); RUnit; RUnit; RVals [25; 1; 2; 3; 7]].
Proof.
  exists (hcfg false [5] hp). split; [|vm_compute; reflexivity].
  replace hpe with (hevs false [5] hp) by (vm_compute; reflexivity). apply hex_history. vm_compute. reflexivity.
Qed.
(** The hypotheses of the theorems hold of it. *)
Example C44_example_facts : at_rest hpe /\ no_growth_panic hpe /\ a_len (replay (abs0 [5] 8) hpe) = 5 /\ ~ In EClear hpe /\ grew hpe 0 9 4 1 /\ grew hpe 1 7 1 3 /\
  ended hpe 12 15 (OElem 0 (EUpdate (plus 10))) (Returns RUnit) /\ update_calls 0 hpe = 2 /\ value (replay (abs0 [5] 8) hpe) 0 = Some 25 /\
  returned hpe 18 24 OIterCloned (RVals [25; 1; 2; 3; 7]) /\ put_in hpe = [1; 2; 3; 7; 15; 25] /\ taken_out (abs0 [5] 8) hpe = [5; 15].
Proof.
  split.
  { intros id t o [H1 H2]. do 25 (destruct id as [|id]; [try discriminate H1; discriminate H2|]). destruct id; discriminate. }
  split.
  { intros r id o m (t & _ & H). do 25 (destruct r as [|r]; [discriminate H|]). destruct r; discriminate. }
  split; [reflexivity|]. split; [simpl; intuition discriminate|].
  split; [exists (OPush 7); repeat split; exists 1; auto|]. split; [eexists; repeat split; [exists 2; split; reflexivity|reflexivity|reflexivity]|].
  split; [exists 3; auto|]. split; [reflexivity|]. split; [reflexivity|]. split; [exists 3; auto|]. split; reflexivity.
Qed.

(** [get_cloned] that returns [None] is left out of [C44_linearizable] for a reason: a push by another thread may have returned before. *)
Definition stale_hist : list (event nat) :=
  [EInv 0 1 (OPush 7); EAcc 0 1 (AcAdd 0 1); EAcc 0 1 (AcInit 0 7); ERet 0 1 (RNat 0); EInv 4 2 (OGetCloned 0); ERet 4 2 (ROptVal None)].
Theorem C44_stale_refuted : exists c, whistory ex true [] 2 8 c stale_hist /\ at_rest stale_hist /\
  forall lin m', ~ linearization (eqv ex) stale_hist lin (value (abs0 [] 8)) m'.
Proof.
  exists (hcfg true [] ex2). split.
  { replace stale_hist with (hevs true [] ex2) by (vm_compute; reflexivity). apply hex_history. vm_compute. reflexivity. }
  split.
  { intros id t o [H1 H2]. do 6 (destruct id as [|id]; [try discriminate H1; discriminate H2|]). destruct id; discriminate. }
  intros lin m' [Lo Lc La Lu Lp Lq Lr].
  assert (A : forall id t o, nth_error stale_hist id = Some (EInv id t o) -> (id = 0 /\ o = OPush 7) \/ (id = 4 /\ o = OGetCloned 0)).
  { intros id t o H. do 6 (destruct id as [|id]; [try discriminate H; injection H as <- <-; auto|]). destruct id; discriminate H. }
  assert (B : forall r id t v, nth_error stale_hist r = Some (ERet id t v) -> (r = 3 /\ id = 0 /\ v = RNat 0) \/ (r = 5 /\ id = 4 /\ v = ROptVal None)).
  { intros r id t v H. do 6 (destruct r as [|r]; [try discriminate H; injection H as <- <- <-; auto|]). destruct r; discriminate H. }
  assert (Cases : forall k e, In (k, e) lin -> (k <= 3 /\ e = ICall 0 (OPush 7) (Returns (RNat 0))) \/ (3 < k /\ e = ICall 4 (OGetCloned 0) (Returns (ROptVal None)))).
  { intros k e Hin. destruct e as [id o x|id x|].
    - destruct (Lc k id o x Hin) as (_ & r & En & Hk). destruct x as [v|m]; destruct En as (t & E1 & E2); [|apply nth_error_In in E2; simpl in E2; intuition discriminate].
      destruct (A _ _ _ E1) as [[-> ->]|[-> ->]]; destruct (B _ _ _ _ E2) as [(-> & Q & ->)|(-> & Q & ->)]; try discriminate; [left|right]; (split; [lia|reflexivity]).
    - apply Lp in Hin. destruct Hin as (_ & t & o & H1 & (t' & H2) & H3). exfalso.
      do 6 (destruct k as [|k]; [try discriminate H1; injection H1 as <- <- <-; injection H2 as <- <-; discriminate H3|]). destruct k; discriminate H1.
    - apply Lq in Hin. exfalso. do 6 (destruct k as [|k]; [discriminate Hin|]). destruct k; discriminate Hin. }
  destruct (La 0 3 (OPush 7) (Returns (RNat 0))) as (k1 & H1); [exists 1; auto|reflexivity|].
  destruct (La 4 5 (OGetCloned 0) (Returns (ROptVal None))) as (k2 & H2); [exists 2; auto|reflexivity|].
  destruct (Cases _ _ H1) as [[K1 _]|[_ Q]]; [|discriminate Q]. destruct (Cases _ _ H2) as [[_ Q]|[K2 _]]; [discriminate Q|].
  clear La Lc Lp Lq.
  (* the first entry is the push, the second one is the get *)
  destruct lin as [|[k e] lin]; [destruct H1|]. simpl in Lo. destruct Lo as [Lo1 Lo2].
  destruct (Cases k e (or_introl eq_refl)) as [[Hk ->]|[Hk ->]].
  2:{ destruct H1 as [Q|H1]; [discriminate Q|]. apply (in_map fst) in H1. apply Lo1 in H1. simpl in H1. lia. }
  destruct H2 as [Q|H2]; [discriminate Q|]. destruct lin as [|[k' e'] lin]; [destruct H2|].
  destruct (Cases k' e' (or_intror (or_introl eq_refl))) as [[Hk' ->]|[Hk' ->]].
  - specialize (Lu k k' 0 _ _ _ _ (or_introl eq_refl) (or_intror (or_introl eq_refl))). specialize (Lo1 k' (or_introl eq_refl)). lia.
  - destruct Lr as (m1 & S1 & m2 & S2 & _). destruct S1 as [(i & Q & _ & P & _)|[Q _]]; [|discriminate Q]. injection Q as <-. destruct S2 as [Q _]. rewrite P in Q. discriminate.
Qed.
