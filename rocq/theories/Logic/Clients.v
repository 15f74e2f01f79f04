(** * The discipline on calls implies the discipline on states. *)

From Coq Require Import List Arith Bool Lia.
From Verif.Model Require Import Prog Mem Deps State Elem Vec Excl Machine.
From Verif Require Import Client Spec.
From Verif.Logic Require Import Inv WP Post Specs Ops Sound Shape.
Import ListNotations.
Local Arguments Nat.leb : simpl never.
Local Arguments Nat.ltb : simpl never.
Local Arguments Nat.eqb : simpl never.
Local Arguments Nat.add : simpl never.
Local Arguments Nat.sub : simpl never.

Section Where.
  Context {V : Type}.
  Notation history := (list (event V)).
  Implicit Types (a : abs V) (h : history).

  (** ** where the status of a position comes from *)
  Lemma reserved_from a h i id : (forall j, a_pos a i <> Reserved j) -> a_pos (replay a h) i = Reserved id ->
    exists h1 t b n h2, h = h1 ++ EAcc id t (AcAdd b n) :: h2 /\ ~ In EClear h2 /\ b <= i < b + n.
  Proof.
    intros N. induction h as [|e h IH] using rev_ind; [intros H; now apply N in H|].
    rewrite replay_snoc. intros H.
    assert (K : e <> EClear -> a_pos (replay a h) i = Reserved id -> exists h1 t b n h2,
              h ++ [e] = h1 ++ EAcc id t (AcAdd b n) :: h2 /\ ~ In EClear h2 /\ b <= i < b + n).
    { intros Ne X. destruct (IH X) as (h1 & t & b & n & h2 & -> & Hc & Hb).
      exists h1, t, b, n, (h2 ++ [e]). rewrite <- app_assoc. split; [reflexivity|]. split; [|assumption].
      intros Y. apply in_app_or in Y. simpl in Y. intuition. }
    destruct e as [id' t o|id' t r|id' t m|id' t [b n|j v|j v|j old w|j k v w|j x|n|n]| |n m]; simpl in H;
      try (apply K; [discriminate|exact H]); try discriminate.
    - destruct (a_pos (replay a h) i) as [|j| |] eqn:X; try discriminate.
      destruct (j =? id'); [discriminate|]. apply K; [discriminate|congruence].
    - destruct (in_range b n i) eqn:R; [|apply K; [discriminate|exact H]]. injection H as ->.
      exists h, t, b, n, []. split; [reflexivity|]. split; [simpl; tauto|].
      unfold in_range in R. apply andb_prop in R. destruct R as [R1 R2].
      apply Nat.leb_le in R1. apply Nat.ltb_lt in R2. lia.
    - unfold upd in H. destruct (i =? j); [discriminate|]. apply K; [discriminate|exact H].
    - unfold upd in H. destruct (i =? j); [discriminate|]. apply K; [discriminate|exact H].
    - unfold upd in H. destruct (i =? k); [discriminate|]. destruct (i =? j); [discriminate|]. apply K; [discriminate|exact H].
  Qed.

  Lemma abandoned_from a h i : a_pos a i <> Abandoned -> a_pos (replay a h) i = Abandoned ->
    exists h1 id t m h2, h = h1 ++ EPan id t m :: h2 /\ ~ In EClear h2 /\ a_pos (replay a h1) i = Reserved id.
  Proof.
    intros N. induction h as [|e h IH] using rev_ind; [intros H; now apply N in H|].
    rewrite replay_snoc. intros H.
    assert (K : e <> EClear -> a_pos (replay a h) i = Abandoned -> exists h1 id t m h2,
              h ++ [e] = h1 ++ EPan id t m :: h2 /\ ~ In EClear h2 /\ a_pos (replay a h1) i = Reserved id).
    { intros Ne X. destruct (IH X) as (h1 & id & t & m & h2 & -> & Hc & Hb).
      exists h1, id, t, m, (h2 ++ [e]). rewrite <- app_assoc. split; [reflexivity|]. split; [|assumption].
      intros Y. apply in_app_or in Y. simpl in Y. intuition. }
    destruct e as [id' t o|id' t r|id' t m|id' t [b n|j v|j v|j old w|j k v w|j x|n|n]| |n m]; simpl in H;
      try (apply K; [discriminate|exact H]); try discriminate.
    - destruct (a_pos (replay a h) i) as [|j| |] eqn:X; try discriminate.
      + destruct (Nat.eqb_spec j id') as [->|]; [|discriminate].
        exists h, id', t, m, []. split; [reflexivity|]. simpl. tauto.
      + apply K; [discriminate|exact H].
    - destruct (in_range b n i) eqn:R; [discriminate|apply K; [discriminate|exact H]].
    - unfold upd in H. destruct (i =? j); [discriminate|]. apply K; [discriminate|exact H].
    - unfold upd in H. destruct (i =? j); [discriminate|]. apply K; [discriminate|exact H].
    - unfold upd in H. destruct (i =? k); [discriminate|]. destruct (i =? j); [discriminate|]. apply K; [discriminate|exact H].
  Qed.

  Lemma start_pos (l : list V) m i : a_pos (abs0 l m) i = Unreserved \/ exists v, a_pos (abs0 l m) i = Has v.
  Proof. simpl. destruct (nth_error l i); eauto. Qed.

  Lemma accs_in id t (x : acc V) h : In (EAcc id t x) h -> In x (accs id h).
  Proof.
    intros H. unfold accs. apply in_flat_map. exists (EAcc id t x). split; [assumption|].
    rewrite Nat.eqb_refl. simpl. auto.
  Qed.
  Lemma eff_in (x : acc V) tr : In x tr -> is_eff x = true -> In x (eff tr).
  Proof. intros. apply filter_In. auto. Qed.

  Lemma inits_add (vs : list V) b x n : In (AcAdd x n) (inits b vs) -> False.
  Proof. revert b. induction vs as [|v vs IH]; intros b; simpl; [tauto|]. intros [H|H]; [discriminate|eauto]. Qed.
  Lemma add_one tr b n (vs : list V) x k : eff tr = AcAdd b n :: inits b vs -> In (AcAdd x k) tr -> x = b /\ k = n.
  Proof.
    intros H Hin. apply eff_in in Hin; [|reflexivity]. rewrite H in Hin. destruct Hin as [X|X]; [injection X as -> ->; auto|].
    now apply inits_add in X.
  Qed.
  Lemma reads_add (vs : list V) b x n : In (AcAdd x n) (reads b vs) -> False.
  Proof. revert b. induction vs as [|v vs IH]; intros b; simpl; [tauto|]. intros [H|H]; [discriminate|eauto]. Qed.
  Lemma writes_add (vs : list (V * V)) b x n : In (AcAdd x n) (writes b vs) -> False.
  Proof. revert b. induction vs as [|v vs IH]; intros b; simpl; [tauto|]. intros [H|H]; [discriminate|eauto]. Qed.
End Where.

(** ** Overruns *)
Section Over.
  Context {V : Type}.
  Implicit Types (h : list (event V)) (e : event V) (o : op V).
  Definition too_far o (m : panic) : Prop := m = PMaxCap \/ (m = PClosure /\ exists f, o = OPushFor f).
  Lemma too_far_dec o m : too_far o m \/ ~ too_far o m.
  Proof.
    unfold too_far. destruct m; try (right; intros [Q|[Q _]]; discriminate); [left; auto|].
    destruct o; try (right; intros [Q|[_ [g Q]]]; discriminate). left. eauto.
  Qed.
  Lemma over_snoc h e : e <> EClear -> overrun (h ++ [e]) ->
    overrun h \/ exists id t m o, e = EPan id t m /\ nth_error h id = Some (EInv id t o) /\ too_far o m.
  Proof.
    intros Ne (h1 & id & t & m & h2 & o & Q & N & I & C). destruct h2 as [|e2 h2] using rev_ind.
    - apply app_inj_tail in Q as [<- ->]. right. exists id, t, m, o. auto.
    - change (h1 ++ EPan id t m :: h2 ++ [e2]) with (h1 ++ (EPan id t m :: h2) ++ [e2]) in Q. rewrite app_assoc in Q. apply app_inj_tail in Q as [-> <-]. left.
      exists h1, id, t, m, h2, o. split; [reflexivity|]. split; [|auto]. intros Hi. apply N, in_or_app. auto.
  Qed.
  Lemma over_app h h2 : (forall e, In e h2 -> match e with EClear | EPan _ _ _ => False | _ => True end) -> overrun (h ++ h2) -> overrun h.
  Proof.
    induction h2 as [|e h2 IH] using rev_ind; intros F; [now rewrite app_nil_r|]. rewrite app_assoc. intros O.
    assert (Fe : match e with EClear | EPan _ _ _ => False | _ => True end) by (apply F, in_or_app; simpl; auto).
    apply over_snoc in O as [O|(id & t & m & o & -> & _)]; [|contradiction|intros ->; contradiction].
    apply IH; [|exact O]. intros e' He. apply F, in_or_app. auto.
  Qed.
  Lemma over_end h id t m o : nth_error h id = Some (EInv id t o) -> too_far o m -> overrun (h ++ [EPan id t m]).
  Proof. intros I C. exists h, id, t, m, [], o. repeat (split; [first [reflexivity|assumption|exact (fun x => x)]|]). exact C. Qed.
  Lemma over_dec h : overrun h \/ ~ overrun h.
  Proof.
    induction h as [|e h IH] using rev_ind; [right; intros (h1 & id & t & m & h2 & o & Q & _); destruct h1; discriminate|].
    assert (K : e <> EClear -> overrun h -> overrun (h ++ [e])).
    { intros N (h1 & id & t & m & h2 & o & -> & C & I). exists h1, id, t, m, (h2 ++ [e]), o. rewrite <- app_assoc. split; [reflexivity|]. split; [|exact I].
      intros Hi. apply in_app_or in Hi as [Hi|[Hi|[]]]; [contradiction|congruence]. }
    assert (D : e = EClear \/ e <> EClear) by (destruct e; auto; right; discriminate). destruct D as [->|N].
    { right. intros (h1 & id & t & m & h2 & o & Q & C & _). destruct h2 as [|e2 h2] using rev_ind; [apply app_inj_tail in Q as [_ Q]; discriminate|].
      change (h1 ++ EPan id t m :: h2 ++ [e2]) with (h1 ++ (EPan id t m :: h2) ++ [e2]) in Q. rewrite app_assoc in Q. apply app_inj_tail in Q as [_ <-]. apply C, in_or_app. simpl. auto. }
    destruct IH as [O|O]; [auto|].
    assert (P : (exists id t m o, e = EPan id t m /\ nth_error h id = Some (EInv id t o) /\ too_far o m) \/
                ~ exists id t m o, e = EPan id t m /\ nth_error h id = Some (EInv id t o) /\ too_far o m).
    { destruct e as [| |id t m| | |]; try (right; intros (? & ? & ? & ? & Q & _); discriminate).
      destruct (nth_error h id) as [[id' t' o| | | | |]|] eqn:H; try (right; intros (? & ? & ? & ? & Q & R & _); injection Q as <- <- <-; congruence).
      destruct (Nat.eq_dec id' id) as [->|]; [|right; intros (? & ? & ? & ? & Q & R & _); injection Q as <- <- <-; congruence].
      destruct (Nat.eq_dec t' t) as [->|]; [|right; intros (? & ? & ? & ? & Q & R & _); injection Q as <- <- <-; congruence].
      destruct (too_far_dec o m); [left; exists id, t, m, o; auto|]. right. intros (? & ? & ? & ? & Q & R & T). injection Q as <- <- <-. rewrite H in R. injection R as <-. contradiction. }
    destruct P as [(id & t & m & o & -> & I & T)|P]; [left; eapply over_end; eauto|]. right. intros Q. apply over_snoc in Q as [Q|Q]; auto.
  Qed.
End Over.

Section Clients.
  Context {V : Type} (E : env V) (ro nl : bool) (EOK : env_ok E).
  Context (l0 : list V) (c0 m0 : nat).
  Notation GI := (GI E ro nl l0 m0).
  Notation explained := (explained E ro nl l0 m0).
  Implicit Types (c : cfg V) (x : call V) (s : shared V).

  (** A call that panicked with reserved positions: they are inside the storage, unless the call is
      of the kind [overrun] speaks about. *)
  Lemma pan_room o m tr s1 s2 b n : pan E o m tr s1 s2 -> In (AcAdd b n) tr ->
    b + n <= cap s2 \/ n = 0 \/ m = PMaxCap \/ (m = PClosure /\ exists f, o = OPushFor f).
  Proof.
    intros P Hin. pose proof (eff_in _ _ Hin eq_refl) as He.
    assert (GP : forall n' it b', grow_pan n' it b' m tr s1 s2 ->
      b + n <= cap s2 \/ n = 0 \/ m = PMaxCap \/ (m = PClosure /\ exists f, o = OPushFor f)).
    { intros n' it b' [(-> & _)|(Hc & vs & _ & Hv & _)]; [auto|].
      destruct (add_one _ _ _ _ _ _ Hv Hin) as [-> ->]. auto. }
    destruct o; simpl in P; try contradiction.
    - destruct P as (b' & -> & _). auto.
    - destruct P as (b' & _ & [(-> & _)|(-> & _)]); eauto 10.
    - destruct P as (b' & P). eauto.
    - destruct P as (b' & [(-> & _)|[(-> & _ & Hv & Hc)|[(-> & _ & Hv & Hc)|(it & _ & P)]]]); auto.
      + destruct (add_one _ _ _ [] _ _ Hv Hin) as [-> ->]. destruct n0; [auto|left; apply Hc; lia].
      + destruct (add_one _ _ _ [] _ _ Hv Hin) as [-> ->]. destruct n0; [auto|left; apply Hc; lia].
      + eauto.
    - destruct P as (b' & P). eauto.
    - destruct P as (_ & X & _). rewrite X in He. destruct He.
    - destruct P as (? & _ & _ & _ & X & _). rewrite X in He. destruct He.
    - destruct P as (? & _ & _ & ps & _ & _ & X & _). rewrite X in He. now apply writes_add in He.
    - destruct P as (? & _ & _ & ps & _ & X & _). rewrite X in He. now apply reads_add in He.
    - destruct P as (? & _ & _ & ps & _ & X & _). rewrite X in He. now apply reads_add in He.
    - destruct P as (? & _ & _ & ps & _ & X & _). rewrite X in He. now apply reads_add in He.
    - destruct P as (? & _ & _ & ps & _ & X & _). rewrite X in He. now apply reads_add in He.
    - destruct P as (_ & X & _). rewrite X in He. destruct He.
    - destruct P as (_ & _ & X). rewrite X in He. destruct He.
    - destruct o; simpl in P; try contradiction; destruct P as (_ & v & X & _); rewrite X in He; simpl in He;
        destruct He as [He|[]]; discriminate.
    - destruct o; simpl in P; try contradiction.
      + destruct P as (_ & _ & X). rewrite X in He. destruct He.
      + destruct P as (_ & _ & X & _). rewrite X in He. destruct He.
      + destruct P as (_ & ps & _ & _ & X & _). rewrite X in He. now apply writes_add in He.
      + destruct P as (_ & ps & _ & X & _). rewrite X in He. now apply reads_add in He.
      + destruct P as (_ & ps & _ & X & _). rewrite X in He. now apply reads_add in He.
      + destruct P as (_ & ps & _ & X & _). rewrite X in He. now apply reads_add in He.
      + destruct P as (_ & ps & _ & X & _). rewrite X in He. now apply reads_add in He.
      + destruct P as (_ & _ & X). rewrite X in He. destruct He.
      + destruct P as (_ & _ & X). rewrite X in He. destruct He.
  Qed.

  (** Positions of calls that panicked are inside the storage, unless there was an overrun. *)
  Lemma dead_over c snap g k : GI c snap g -> a_pos (replay (a0 l0 m0) (hist c)) k = Abandoned -> cap (sh c) <= k -> overrun (hist c).
  Proof.
    intros G A Hk. apply abandoned_from in A.
    2:{ unfold a0. destruct (start_pos l0 m0 k) as [X|[v X]]; rewrite X; discriminate. }
    destruct A as (h1 & id & t & m & h2 & Hh & Hc & A).
    assert (A' := A). apply reserved_from in A'.
    2:{ intros j. unfold a0. destruct (start_pos l0 m0 k) as [X|[v X]]; rewrite X; discriminate. }
    destruct A' as (h3 & t' & b & n & h4 & H1 & _ & Hb).
    pose proof (gi_expl _ _ _ _ _ _ _ _ G) as X.
    destruct (x_ev _ _ _ _ _ _ _ X h1 _ h2 Hh) as (_ & _ & _ & _ & o & Ho & Pn).
    assert (Hin : In (AcAdd b n) (accs id h1)).
    { apply accs_in with (t := t'). rewrite H1. apply in_or_app. simpl. auto. }
    destruct (pan_room _ _ _ _ _ _ _ Pn Hin) as [Hr|[Hr|Hr]]; [exfalso|lia|].
    - pose proof (x_mono _ _ _ _ _ _ _ X h1 (EPan id t m :: h2) [] ltac:(now rewrite app_nil_r)) as M.
      rewrite <- Hh in M. rewrite (gi_snap _ _ _ _ _ _ _ _ G) in M.
      destruct M as [_ _ M _ _]; [intros [Y|Y]; [discriminate|contradiction]|]. lia.
    - exists h1, id, t, m, h2, o. split; [assumption|]. split; [assumption|]. split; [apply Ho|assumption].
  Qed.

  (** At rest, unless there was an overrun, all reserved positions are inside the storage. *)
  Lemma rest_room c snap g : GI c snap g -> run c = [] -> ~ overrun (hist c) -> resv (sh c) <= cap (sh c).
  Proof.
    intros G R NO. destruct (resv (sh c)) as [|k] eqn:Rk; [lia|].
    assert (Hk : k < resv (sh c)) by lia.
    pose proof (gi_pos _ _ _ _ _ _ _ _ G k) as P.
    assert (Nf : g k <> GFree).
    { intros X. apply (i_free _ _ _ _ (gi_inv _ _ _ _ _ _ _ _ G)) in X. lia. }
    destruct (a_pos (replay (a0 l0 m0) (hist c)) k) as [|id| |v] eqn:A; simpl in P.
    - contradiction.
    - destruct P as (t & y & Ht & _). rewrite R in Ht. discriminate.
    - destruct (Nat.le_gt_cases (S k) (cap (sh c))); [assumption|]. exfalso. apply NO. apply (dead_over c snap g k G A). lia.
    - apply (full_filled _ _ _ _ _ (gi_inv _ _ _ _ _ _ _ _ G)) in P. destruct P. lia.
  Qed.

  (** ** The number of requested positions bounds the reservation counter *)
  Definition pend x : nat := match c_prog x with Act (AddResv n _) _ => n | _ => 0 end.
  Definition pends (r : list (nat * call V)) : nat := list_sum (map (fun p => pend (snd p)) r).
  Lemma pends_remove t r x : lookup t r = Some x -> pends r = pend x + pends (remove t r).
  Proof.
    unfold pends. induction r as [|[u y] r IH]; simpl; [discriminate|].
    destruct (t =? u); [intros [= ->]; reflexivity|]. intros H. simpl. rewrite (IH H). lia.
  Qed.
  Lemma remove_lookup t r u (x : call V) : NoDup (map fst r) -> lookup u (remove t r) = Some x -> lookup u r = Some x.
  Proof.
    intros N H. destruct (Nat.eq_dec u t) as [->|D].
    - rewrite lookup_remove_same in H by assumption. discriminate.
    - now rewrite lookup_remove_other in H.
  Qed.

  Definition succs (p q : prog V (ret V)) : Prop :=
    match p with Act a k => exists y, q = k y | _ => False end.
  Definition phase x : Prop :=
    (grows (c_op x) = true /\ c_prog x = op_prog E (c_op x)) \/ tail (c_op x) (c_prog x).
  Lemma tail_pend x : tail (c_op x) (c_prog x) -> pend x = 0.
  Proof.
    unfold tail, pend. destruct (c_prog x) as [| |a k|a ag k]; try reflexivity. intros [H _]. destruct a; try reflexivity. destruct H.
  Qed.

  Lemma exec_resv t (a : act V) s y s' l : exec E t a s = Done y s' l ->
    (exists n r, a = AddResv n r /\ resv s' = (resv s + n) mod wmod E) \/
    ((forall n r, a <> AddResv n r) /\ resv s' = resv s).
  Proof.
    destruct a; simpl; unfold with_slot; intros H;
      repeat match goal with
             | H : context [if ?b then _ else _] |- _ => destruct b
             | H : context [match ?b with _ => _ end] |- _ => destruct b
             end; try discriminate; injection H as <- <- <-; simpl; eauto 6; right; split; auto; intros ? ?; discriminate.
  Qed.

  Record B c : Prop := MkB {
    b_ph : forall t x, lookup t (run c) = Some x -> phase x;
    b_nd : NoDup (map fst (run c));
    b_le : resv (sh c) + pends (run c) = requested (length l0) (hist c);
    b_wm : requested (length l0) (hist c) < wmod E
  }.

  Lemma requested_snoc n h e : requested n (h ++ [e]) =
    match e with EInv _ _ o => requested n h + request o | EClear => 0 | _ => @requested V n h end.
  Proof. unfold requested. rewrite fold_left_app. reflexivity. Qed.
  Lemma requested_accs n h id t (l : list (acc V)) : requested n (h ++ map (EAcc id t) l) = requested n h.
  Proof.
    induction l as [|x l IH] using rev_ind; simpl; [now rewrite app_nil_r|].
    rewrite map_app, app_assoc. simpl. now rewrite requested_snoc.
  Qed.

  Lemma after_lookup' t c x p s l u : NoDup (map fst (run c)) ->
    lookup u (run (after t c x p s l)) = if u =? t then Some (Call (c_id x) (c_op x) p) else lookup u (run c).
  Proof.
    intros N. simpl. destruct (Nat.eqb_spec u t); [reflexivity|]. now apply lookup_remove_other.
  Qed.

  Lemma pend_op o : pend (Call 0 o (op_prog E o)) = request o /\ (grows o = false -> request o = 0).
  Proof.
    split; [|destruct o; simpl; congruence]. destruct (grows o) eqn:Gr.
    - destruct (grow_shape E o Gr) as (k & Hk & _). unfold pend. simpl. now rewrite Hk.
    - pose proof (op_shape E o Gr) as Sh. rewrite (tail_pend (Call 0 o (op_prog E o)) Sh). destruct o; simpl in *; congruence.
  Qed.

  Lemma start_B : length l0 < wmod E -> B (start l0 c0 m0).
  Proof.
    intros H. constructor; simpl.
    - discriminate.
    - constructor.
    - unfold pends, requested. simpl. rewrite map_length. lia.
    - exact H.
  Qed.

  Lemma B_after t c x a k y s' l : B c -> lookup t (run c) = Some x ->
    (c_prog x = Act a k \/ exists again, c_prog x = Spin a again k) -> exec E t a (sh c) = Done y s' l ->
    B (after t c x (k y) s' l).
  Proof.
    intros HB Lk Hp Ex. pose proof (b_ph _ HB t x Lk) as Ph.
    assert (T : tail (c_op x) (k y)).
    { destruct Ph as [[Gr Hx]|Tl].
      - destruct (grow_shape E (c_op x) Gr) as (k' & Hk & Tl). rewrite Hx, Hk in Hp.
        destruct Hp as [Hp|(ag & Hp)]; [|discriminate].
        assert (Su : succs (Act (AddResv (request (c_op x)) Relaxed) k') (k y)) by (rewrite Hp; simpl; eauto).
        destruct Su as (z & ->). apply Tl.
      - unfold tail in Tl. destruct Hp as [Hp|(ag & Hp)]; rewrite Hp in Tl; destruct Tl as [_ Tl]; apply Tl. }
    pose proof (pends_remove t _ _ Lk) as Hs. pose proof (b_le _ HB). pose proof (b_wm _ HB).
    constructor.
    - intros u z. rewrite after_lookup' by apply HB. destruct (Nat.eqb_spec u t).
      + intros [= <-]. right. exact T.
      + apply (b_ph _ HB).
    - simpl. constructor; [|apply remove_nodup, HB]. apply remove_notin, HB.
    - simpl. unfold after. simpl. rewrite requested_accs. unfold pends in *. simpl.
      replace (pend (Call (c_id x) (c_op x) (k y))) with 0 by (symmetry; apply (tail_pend (Call (c_id x) (c_op x) (k y))), T).
      destruct (exec_resv _ _ _ _ _ _ Ex) as [(n & r & -> & ->)|[Na ->]].
      2:{ assert (pend x = 0); [|lia]. unfold pend. destruct Hp as [Hp|(ag & Hp)]; rewrite Hp; [|reflexivity].
          destruct a; try reflexivity. now destruct (Na n o). }
      assert (pend x = n). { unfold pend. destruct Hp as [Hp|(ag & Hp)]; rewrite Hp; [reflexivity|].
        exfalso. destruct Ph as [[Gr Hx]|Tl].
        - destruct (grow_shape E (c_op x) Gr) as (k' & Hk & _). congruence.
        - unfold tail in Tl. rewrite Hp in Tl. destruct Tl as [[] _]. }
      rewrite Nat.mod_small by lia. lia.
    - simpl. unfold after. simpl. rewrite requested_accs. assumption.
  Qed.

  Lemma step_B c l c' : B c -> client E ro nl (length l0) c l -> step E c l = Next c' -> B c'.
  Proof.
    intros HB C S. destruct l as [t o|t| |k]; simpl in S.
    - destruct (lookup t (run c)) eqn:Lk; [discriminate|]. destruct (has_grant o (given c)); [|discriminate].
      injection S as <-. destruct C as [_ C]. constructor; simpl.
      + intros u x. destruct (u =? t); [|apply (b_ph _ HB)]. intros [= <-]. unfold phase. simpl.
        destruct (grows o) eqn:Gr; [auto|]. right. now apply op_shape.
      + constructor; [now apply lookup_none|apply HB].
      + rewrite requested_snoc. unfold pends. simpl. change (pend (Call (length (hist c)) o (op_prog E o))) with (pend (Call 0 o (op_prog E o))).
        rewrite (proj1 (pend_op o)). pose proof (b_le _ HB). unfold pends in H. lia.
      + rewrite requested_snoc. exact C.
    - unfold step_thread in S. destruct (lookup t (run c)) as [x|] eqn:Lk; [|discriminate].
      pose proof (pends_remove t _ _ Lk) as Hs. pose proof (b_le _ HB). pose proof (b_wm _ HB).
      destruct (c_prog x) as [r|m|a k|a ag k] eqn:Hp.
      + assert (pend x = 0) by (unfold pend; now rewrite Hp).
        injection S as <-. constructor; simpl; try (rewrite requested_snoc); try assumption; [| |lia].
        * intros u z Hz. eapply (b_ph _ HB), remove_lookup; eauto. apply HB.
        * apply remove_nodup, HB.
      + assert (pend x = 0) by (unfold pend; now rewrite Hp).
        injection S as <-. constructor; simpl; try (rewrite requested_snoc); try assumption; [| |lia].
        * intros u z Hz. eapply (b_ph _ HB), remove_lookup; eauto. apply HB.
        * apply remove_nodup, HB.
      + destruct (exec E t a (sh c)) eqn:Ex; [|discriminate]. injection S as <-. eapply B_after; eauto.
      + destruct (exec E t a (sh c)) eqn:Ex; [|discriminate]. destruct (ag x0); injection S as <-; [assumption|].
        eapply B_after; eauto.
    - destruct (run c) eqn:R; [|discriminate]. unfold clear in S.
      destruct (resv (sh c) <=? cap (sh c)); [|discriminate]. injection S as <-.
      pose proof (b_wm _ HB). constructor; simpl; try discriminate; try constructor; rewrite requested_snoc; unfold pends; simpl; lia.
    - destruct (run c) eqn:R; [|discriminate]. unfold reserve_maximum_capacity in S.
      destruct (reserve E (cap (sh c)) (maxc (sh c)) k); injection S as <-; [|assumption].
      pose proof (b_le _ HB). rewrite R in H. constructor; simpl; try discriminate; try constructor; rewrite requested_snoc; [exact H|apply HB].
  Qed.

  Lemma client_disciplined c snap g l : GI c snap g -> B c -> client E ro nl (length l0) c l -> run c = [] \/ l <> LClear ->
    disciplined E ro nl c l.
  Proof.
    intros G HB C Hc. destruct l as [t o|t| |k]; simpl in *.
    - apply C.
    - intros x n r k Lk Hp. pose proof (pends_remove t _ _ Lk) as Hs. pose proof (b_le _ HB). pose proof (b_wm _ HB).
      assert (pend x = n) by (unfold pend; now rewrite Hp). lia.
    - destruct Hc as [Hc|Hc]; [|congruence]. eapply rest_room; eauto.
    - exact Logic.I.
  Qed.
End Clients.

Section Exec.
  Context {V : Type} (E : env V) (ro nl : bool) (l0 : list V) (c0 m0 : nat).
  Implicit Types (c : cfg V) (g : nat -> gst V) (h : list (event V)) (s : shared V).

  (** ** who holds the lock of an element *)
  Definition locks_ok c g : Prop :=
    forall i t m x, g i = GLock t m -> lookup t (run c) = Some x -> touches (c_op x) i.
  Definition lockev h (e : event V) : Prop :=
    match e with
    | EAcc _ _ (AcSt i RESERVED) => exists id t o, open h id t o /\ touches o i
    | _ => True
    end.

  Lemma exec_lock t (a : act V) s y s' l i : exec E t a s = Done y s' l -> i < cap s' -> sst (slots s' i) = RESERVED ->
    (i < cap s /\ sst (slots s i) = RESERVED) \/ (exists e n, a = CasSt i e n) \/ a = StoreSt i RESERVED.
  Proof.
    destruct a; simpl; unfold with_slot; intros H Hi Hr;
      repeat match goal with
             | H : context [if ?b then _ else _] |- _ => let Q := fresh "Q" in destruct b eqn:Q
             | H : context [match ?b with _ => _ end] |- _ => let Q := fresh "Q" in destruct b eqn:Q
             end; try discriminate; injection H as <- <- <-; simpl in *; unfold upd in *; auto;
      repeat match goal with
             | H : context [?x =? ?y] |- _ => destruct (Nat.eqb_spec x y); subst; simpl in *; eauto 6
             end; try congruence.
    - right. right. congruence.
    - unfold fill_fresh in Hr. destruct (Nat.leb_spec (cap s) i), (Nat.ltb_spec i n0); simpl in *; try discriminate; try lia; auto.
  Qed.

  Lemma locked_by c snap g i : GI E ro nl l0 m0 c snap g -> i < cap (sh c) -> sst (slots (sh c) i) = RESERVED ->
    exists t m x, g i = GLock t m /\ lookup t (run c) = Some x.
  Proof.
    intros G Hi Hr. pose proof (i_slot _ _ _ _ (gi_inv _ _ _ _ _ _ _ _ G) i) as S.
    assert (exists t m, g i = GLock t m) as (t & m & Hg).
    { destruct (g i) eqn:Gi; simpl in S.
      - rewrite (S Hi) in Hr. discriminate.
      - rewrite (S Hi) in Hr. discriminate.
      - destruct S as (_ & S & _). congruence.
      - destruct S as (_ & S). rewrite S in Hr. discriminate.
      - rewrite (S Hi) in Hr. discriminate.
      - destruct S as (_ & S & _). congruence.
      - eauto. }
    exists t, m. destruct (lookup t (run c)) as [x|] eqn:Lk; [eauto|].
    pose proof (v_own _ _ _ _ (gi_idle _ _ _ _ _ _ _ _ G t Lk) i) as O. rewrite Hg in O. unfold own in O. simpl in O.
    rewrite Nat.eqb_refl in O. discriminate.
  Qed.

  Lemma own_lock u (x y : gst V) m : own u x = own u y -> x = GLock u m -> y = GLock u m.
  Proof.
    intros O ->. symmetry in O. unfold own at 2 in O. simpl in O. rewrite Nat.eqb_refl in O. apply own_some in O. now destruct O.
  Qed.

  Lemma run_phase c c' t x a k y s' l : B E l0 c -> lookup t (run c) = Some x ->
    (c_prog x = Act a k \/ exists again, c_prog x = Spin a again k) ->
    c' = after t c x (k y) s' l -> (forall i e n, a = CasSt i e n -> touches (c_op x) i) /\ (forall i, a <> StoreSt i RESERVED).
  Proof.
    intros HB Lk Hp _. destruct (b_ph _ _ _ HB t x Lk) as [[Gr Hx]|Tl].
    - destruct (grow_shape E (c_op x) Gr) as (k' & Hk & Tl). rewrite Hx, Hk in Hp.
      destruct Hp as [Hp|(ag & Hp)]; [|discriminate]. assert (a = AddResv (request (c_op x)) Relaxed) by congruence. subst a.
      split; intros; discriminate.
    - unfold tail in Tl. destruct Hp as [Hp|(ag & Hp)]; rewrite Hp in Tl; destruct Tl as [Tl _].
      + split; [intros i e n ->; exact Tl|intros i ->; now apply Tl].
      + split; [intros i e n ->; exact Tl|intros i ->; now apply Tl].
  Qed.

  Record world c (snap : nat -> shared V) g : Prop := MkWorld {
    w_gi : GI E ro nl l0 m0 c snap g;
    w_b : B E l0 c;
    w_locks : locks_ok c g;
    w_ev : each lockev (hist c)
  }.

  Lemma acc_list t (a : act V) s y s' l : exec E t a s = Done y s' l ->
    l = [] \/ exists x, l = [x] /\ forall i, x = AcSt i RESERVED -> i < cap s /\ sst (slots s i) = RESERVED.
  Proof.
    destruct a; simpl; unfold with_slot; intros H;
      repeat match goal with
             | H : context [if ?b then _ else _] |- _ => let Q := fresh "Q" in destruct b eqn:Q
             | H : context [match ?b with _ => _ end] |- _ => let Q := fresh "Q" in destruct b eqn:Q
             end; try discriminate; injection H as <- <- <-; auto; right; eexists; (split; [reflexivity|]);
      intros jj X; try discriminate; injection X; intros; subst; apply Nat.ltb_lt in Q; auto.
  Qed.

  Lemma step_world (EOK : env_ok E) c snap g l c' : world c snap g -> client E ro nl (length l0) c l -> step E c l = Next c' ->
    exists snap' g', world c' snap' g' /\ forall u i, ~ actor u l -> own u (g' i) = own u (g i).
  Proof.
    intros [G HB HL HE] C S.
    assert (Hc : run c = [] \/ l <> LClear).
    { destruct l; try (right; discriminate). simpl in S. destruct (run c); [auto|discriminate]. }
    pose proof (step_GI E ro nl EOK l0 c0 m0 c snap g l G (client_disciplined E ro nl l0 m0 c snap g l G HB C Hc)) as X.
    rewrite S in X. destruct X as (snap' & g' & G' & O). exists snap', g'. split; [|exact O].
    assert (LE : forall t x, lookup t (run c) = Some x -> forall i m, g i = GLock t m ->
                 open (hist c) (c_id x) t (c_op x) /\ touches (c_op x) i).
    { intros t x Lk i m Hg. split; [apply (gi_run _ _ _ _ _ _ _ _ G t x Lk)|]. eapply HL; eauto. }
    constructor; [assumption|eapply step_B; eauto| |].
    - intros i t m x' Hg Lk'. destruct l as [u o|u| |k]; simpl in S.
      + destruct (lookup u (run c)) eqn:Lk; [discriminate|]. destruct (has_grant o (given c)); [|discriminate]. injection S as <-.
        simpl in Lk'. destruct (Nat.eqb_spec t u) as [->|Ne].
        * exfalso. destruct (gi_run _ _ _ _ _ _ _ _ G' u x' ltac:(simpl; now rewrite Nat.eqb_refl)) as (_ & L & s0 & Vw & _ & W).
          (* the new call holds nothing: its thread was idle *)
          pose proof (v_own _ _ _ _ (gi_idle _ _ _ _ _ _ _ _ G u Lk) i) as O1. simpl in O1.
          destruct (locked_by _ _ _ i G') as (w & m' & z & Hw & Lw).
          { pose proof (i_slot _ _ _ _ (gi_inv _ _ _ _ _ _ _ _ G') i) as Sl. rewrite Hg in Sl. destruct m; apply Sl. }
          { pose proof (i_slot _ _ _ _ (gi_inv _ _ _ _ _ _ _ _ G') i) as Sl. rewrite Hg in Sl. destruct m; apply Sl. }
          destruct (locked_by _ _ _ i G) as (w2 & m2 & z2 & Hw2 & Lw2).
          { pose proof (i_slot _ _ _ _ (gi_inv _ _ _ _ _ _ _ _ G') i) as Sl. rewrite Hg in Sl. destruct m; apply Sl. }
          { pose proof (i_slot _ _ _ _ (gi_inv _ _ _ _ _ _ _ _ G') i) as Sl. rewrite Hg in Sl. destruct m; apply Sl. }
          destruct (Nat.eq_dec w2 u) as [->|Nw]; [congruence|].
          assert (Nb : ~ actor w2 (LInv u o)) by (simpl; congruence).
          pose proof (own_lock w2 (g i) (g' i) m2 (eq_sym (O w2 i Nb)) Hw2). congruence.
        * assert (Nb : ~ actor t (LInv u o)) by (simpl; congruence).
          eapply HL; [|exact Lk']. apply (own_lock t (g' i) (g i) m (O t i Nb) Hg).
      + destruct (Nat.eq_dec t u) as [->|Ne].
        * unfold step_thread in S. destruct (lookup u (run c)) as [x|] eqn:Lk; [|discriminate].
          assert (Rst : i < cap (sh c') /\ sst (slots (sh c') i) = RESERVED).
          { pose proof (i_slot _ _ _ _ (gi_inv _ _ _ _ _ _ _ _ G') i) as Sl. rewrite Hg in Sl. destruct m; split; apply Sl. }
          assert (Old : i < cap (sh c) -> sst (slots (sh c) i) = RESERVED -> touches (c_op x) i).
          { intros H1 H2. destruct (locked_by _ _ _ i G H1 H2) as (w2 & m2 & z2 & Hw2 & Lw2).
            destruct (Nat.eq_dec w2 u) as [->|Nw]; [eapply HL; eauto|].
            assert (Nb : ~ actor w2 (@LStep V u)) by (simpl; congruence).
            pose proof (own_lock w2 (g i) (g' i) m2 (eq_sym (O w2 i Nb)) Hw2). congruence. }
          assert (ACT : forall a k y s' l, (c_prog x = Act a k \/ exists again, c_prog x = Spin a again k) ->
                    exec E u a (sh c) = Done y s' l -> c' = after u c x (k y) s' l -> touches (c_op x') i).
          { intros a k y s' l Hp Ex ->. simpl in Lk'. rewrite Nat.eqb_refl in Lk'. injection Lk' as <-. simpl in *.
            destruct (run_phase c _ u x a k y s' l HB Lk Hp eq_refl) as [R1 R2].
            destruct (exec_lock _ _ _ _ _ _ i Ex (proj1 Rst) (proj2 Rst)) as [[H1 H2]|[(e & n & H1)|H1]]; eauto.
            now apply R2 in H1. }
          destruct (c_prog x) as [r|m'|a k|a ag k] eqn:Hp.
          { injection S as <-. simpl in Lk'. rewrite lookup_remove_same in Lk' by apply HB. discriminate. }
          { injection S as <-. simpl in Lk'. rewrite lookup_remove_same in Lk' by apply HB. discriminate. }
          { destruct (exec E u a (sh c)) eqn:Ex; [|discriminate]. injection S as <-. eapply ACT; eauto. }
          { destruct (exec E u a (sh c)) eqn:Ex; [|discriminate]. destruct (ag x0) eqn:Ag; injection S as <-; [|eapply ACT; eauto].
            rewrite Lk in Lk'. injection Lk' as <-. apply Old; apply Rst. }
        * assert (Nb : ~ actor t (@LStep V u)) by (simpl; congruence).
          pose proof (own_lock t (g' i) (g i) m (O t i Nb) Hg) as Hg0.
          assert (exists x, lookup t (run c) = Some x /\ c_op x = c_op x') as (x & Lk & Ho).
          { unfold step_thread in S. destruct (lookup u (run c)) as [x|] eqn:Lk; [|discriminate].
            assert (ACT : forall (p : prog V (ret V)) s' l, c' = after u c x p s' l -> exists x, lookup t (run c) = Some x /\ c_op x = c_op x').
            { intros p s' l ->. rewrite after_lookup' in Lk' by apply HB. destruct (Nat.eqb_spec t u); [contradiction|]. eauto. }
            destruct (c_prog x) as [r|m'|a k|a ag k] eqn:Hp.
            - injection S as <-. simpl in Lk'. rewrite lookup_remove_other in Lk' by assumption. eauto.
            - injection S as <-. simpl in Lk'. rewrite lookup_remove_other in Lk' by assumption. eauto.
            - destruct (exec E u a (sh c)) eqn:Ex; [|discriminate]. injection S as <-. eauto.
            - destruct (exec E u a (sh c)) eqn:Ex; [|discriminate]. destruct (ag x0) eqn:Ag; injection S as <-; eauto. }
          rewrite <- Ho. eapply HL; eauto.
      + destruct (run c) eqn:R; [|discriminate]. destruct (clear (sh c)); try discriminate; injection S as <-; simpl in Lk'; try discriminate.
        rewrite R in Lk'. discriminate.
      + destruct (run c) eqn:R; [|discriminate]. destruct (reserve_maximum_capacity E k (sh c)) as [[m' s']| |]; try discriminate; injection S as <-; simpl in Lk'; try discriminate.
        rewrite R in Lk'. discriminate.
    - destruct l as [u o|u| |k]; simpl in S.
      + destruct (lookup u (run c)) eqn:Lk; [discriminate|]. destruct (has_grant o (given c)); [|discriminate]. injection S as <-.
        simpl. apply each_snoc; [assumption|exact Logic.I].
      + unfold step_thread in S. destruct (lookup u (run c)) as [x|] eqn:Lk; [|discriminate].
        assert (ACT : forall a y s' l (p : prog V (ret V)), exec E u a (sh c) = Done y s' l -> c' = after u c x p s' l -> each lockev (hist c')).
        { intros a y s' l p Ex ->. simpl. destruct (acc_list _ _ _ _ _ _ Ex) as [->|(z & -> & Hz)]; simpl; [now rewrite app_nil_r|].
          apply each_snoc; [assumption|]. simpl. destruct z as [| | | | |i z| |]; try exact Logic.I. destruct z; try exact Logic.I.
          destruct (Hz _ eq_refl) as [H1 H2]. destruct (locked_by _ _ _ i G H1 H2) as (w & m & zz & Hg & Lz).
          exists (c_id zz), w, (c_op zz). eapply LE; eauto. }
        destruct (c_prog x) as [r|m'|a k|a ag k] eqn:Hp.
        * injection S as <-. simpl. apply each_snoc; [assumption|exact Logic.I].
        * injection S as <-. simpl. apply each_snoc; [assumption|exact Logic.I].
        * destruct (exec E u a (sh c)) eqn:Ex; [|discriminate]. injection S as <-. eapply ACT; eauto.
        * destruct (exec E u a (sh c)) eqn:Ex; [|discriminate]. destruct (ag x0) eqn:Ag; injection S as <-; [assumption|eapply ACT; eauto].
      + destruct (run c) eqn:R; [|discriminate]. destruct (clear (sh c)); try discriminate; injection S as <-; simpl; [|assumption].
        apply each_snoc; [assumption|exact Logic.I].
      + destruct (run c) eqn:R; [|discriminate]. destruct (reserve_maximum_capacity E k (sh c)) as [[m' s']| |]; try discriminate; injection S as <-; simpl; [|assumption].
        apply each_snoc; [assumption|exact Logic.I].
  Qed.

  Theorem execution_world c : execution E ro nl l0 c0 m0 c -> exists snap g, world c snap g.
  Proof.
    intros (EOK & H1 & H2 & H3 & R). induction R as [|c l c' R IH C S].
    - eexists. eexists. constructor; [now apply start_GI|now apply start_B| |apply each_nil].
      intros i t m x _ Lk. discriminate.
    - destruct IH as (snap & g & W). destruct (step_world EOK c snap g l c' W C S) as (snap' & g' & W' & _). eauto.
  Qed.

  Theorem execution_no_fault c l f : execution E ro nl l0 c0 m0 c -> client E ro nl (length l0) c l -> step E c l <> Fault f.
  Proof.
    intros X C S. destruct (execution_world c X) as (snap & g & [G HB _ _]).
    assert (Hc : run c = [] \/ l <> LClear).
    { destruct l; try (right; discriminate). simpl in S. destruct (run c); [auto|discriminate]. }
    pose proof (step_GI E ro nl (proj1 X) l0 c0 m0 c snap g l G (client_disciplined E ro nl l0 m0 c snap g l G HB C Hc)) as Y.
    now rewrite S in Y.
  Qed.

  Lemma execution_step c l c' : execution E ro nl l0 c0 m0 c -> client E ro nl (length l0) c l -> step E c l = Next c' ->
    execution E ro nl l0 c0 m0 c'.
  Proof.
    intros (X1 & X2 & X3 & X4 & X5) C S. repeat (split; [assumption|]). eapply reach_step; eauto.
  Qed.
  Lemma execution_reach c c' : execution E ro nl l0 c0 m0 c -> reach E (client E ro nl (length l0)) c c' ->
    execution E ro nl l0 c0 m0 c'.
  Proof. intros X R. induction R; [assumption|]. eapply execution_step; eauto. Qed.
End Exec.
