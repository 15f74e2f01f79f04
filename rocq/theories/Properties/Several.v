(** * C50: several vectors, and comparing them. *)

From Coq Require Import List Arith Bool Lia.
From Verif.Model Require Import Prog Mem Deps State Elem Vec Excl Machine Reentrant Several.
From Verif Require Import Client Spec Seq Nested Compare.
From Verif.Logic Require Import Inv WP Post Reentry Nesting Project Compares.
From Verif.Properties Require Import Examples Reentrant.
Import ListNotations.
Local Arguments agent : simpl never.

Section Several.
  Context {V : Type} (E : env V) (l0 : nat -> list V) (c0 m0 : nat -> nat) (c : mcfg V).
  Hypothesis X : mexecution E EqWait l0 c0 m0 c.

  (** What a vector sees of an execution with several vectors is an execution of this vector alone, with closures
      that call back: comparing elements is calling [map] with a closure that calls [map].  So what C45 says,
      and with it C01-C43, holds for every one of several vectors that are compared with each other. *)
  Theorem C50_project w : exists r, rexecution E false false (l0 w) (c0 w) (m0 w) r /\ rsh r = msh c w /\ shows w (mhist c) (rhist r).
  Proof. destruct (msim_reach E l0 c0 m0 w c X) as (r & Xr & M). exists r. split; [assumption|]. split; apply M. Qed.

  (** No undefined behaviour. *)
  Theorem C50_no_fault l f : mclient E l0 c l -> mstep E EqWait c l <> MFault f.
  Proof.
    intros P S. destruct l as [t o|t]; cbn [mstep] in S.
    - destruct (mrun c t); [discriminate|]. destruct (mhas (mgiven c) o); discriminate.
    - destruct (mrun c t) as [x|] eqn:Rx; [|discriminate].
      assert (K : forall w d a, (exists k, m_prog x = QAct w d a k) \/ (exists ag k, m_prog x = QSpin w d a ag k) -> exec E (agent t d) a (msh c w) = Bad f -> False).
      { intros w d a Pr Ex. destruct (msim_reach E l0 c0 m0 w c X) as (r & Xr & M). pose proof (ms_run _ _ _ _ _ M t) as T. rewrite Rx in T. cbn [thread_sim] in T.
        assert (Cmp : cov E w (m_prog x) (map (@f_prog V) (stack t (rrun r))) (rgiven r) -> compares (m_op x) = true -> False).
        { intros Cv Co.
          assert (Sp : exists fr rest G', settle E (map (@f_prog V) (stack t (rrun r))) (rgiven r) (fr :: rest) G' /\ d = length rest /\
                     ((exists k, fr = RAct a k) \/ exists ag k, fr = RSpin a ag k)).
          { destruct Pr as [(k & Pr)|(ag & k & Pr)]; rewrite Pr in Cv; cbn [cov] in Cv; rewrite Nat.eqb_refl in Cv.
            - destruct Cv as (k' & rest & G' & Se & D & _). exists (RAct a k'), rest, G'. eauto.
            - destruct Cv as (ag' & k' & rest & G' & Se & D & _). exists (RSpin a ag' k'), rest, G'. eauto 6. }
          destruct Sp as (fr & rest & G' & Se & D & Fr). destruct (sim_settle E l0 w c r t x _ _ (mexec_calls _ _ _ _ _ X) M Rx Co Se) as (r' & R1 & St & _ & Sh & _).
          assert (X' : rexecution E false false (l0 w) (c0 w) (m0 w) r') by (apply (rexecution_trans _ _ _ _ _ _ _ _ Xr (quiet_reach _ _ _ _ _ R1))).
          apply (C45_no_fault E false false (l0 w) (c0 w) (m0 w) r' X' (NLStep t) f Logic.I). cbn [rstep].
          destruct (stack t (rrun r')) as [|[id o p] fs]; [discriminate|]. cbn [map f_prog] in St. injection St as -> <-. rewrite map_length in D. subst d.
          rewrite Sh, (ms_sh _ _ _ _ _ M). destruct Fr as [(k & ->)|(ag & k & ->)]; cbn [f_prog]; now rewrite Ex. }
        destruct (m_op x) as [v o|a' b'|w1 i w2 j]; [|apply Cmp; auto|apply Cmp; auto].
        assert (Fl : forall id o0 (p : prog V (ret V)), stack t (rrun r) = [Frame id (RPlain o0) (lift p)] -> m_prog x = on w p -> False).
        { intros id o0 p St On. apply (C45_no_fault E false false (l0 w) (c0 w) (m0 w) r Xr (NLStep t) f Logic.I). cbn [rstep]. rewrite St. cbn [f_prog length]. rewrite (ms_sh _ _ _ _ _ M).
          destruct Pr as [(k & Pr)|(ag & k & Pr)]; rewrite Pr in On; destruct p as [r'|m|a1 k1|a1 ag1 k1]; cbn [on] in On; try discriminate; cbn [lift].
          - assert (A1 : a1 = a /\ d = 0) by (injection On; auto). destruct A1 as [-> ->]. now rewrite Ex.
          - assert (A1 : a1 = a /\ d = 0) by (injection On; auto). destruct A1 as [-> ->]. now rewrite Ex. }
        destruct (Nat.eqb_spec v w) as [->|N].
        - destruct T as (id & p & St & On). eauto.
        - destruct T as (_ & p & On). destruct Pr as [(k & Pr)|(ag & k & Pr)]; rewrite Pr in On; destruct p; cbn [on] in On; try discriminate; injection On; congruence. }
      destruct (m_prog x) as [r|m|w d a k|w d a ag k] eqn:Pr; try discriminate.
      + destruct (exec E (agent t d) a (msh c w)) as [y s l|f'] eqn:Ex; [discriminate|]. injection S as ->. eapply K; eauto.
      + destruct (exec E (agent t d) a (msh c w)) as [y s l|f'] eqn:Ex; [destruct (ag y); discriminate|]. injection S as ->. eapply K; eauto.
  Qed.

  (** [a == b] called by thread [t] in [c]; [c2] is a later moment at which it has returned. *)
  Section Call.
    Context (t : nat) (a b : operand) (c1 c2 : mcfg V).
    Hypothesis S : mstep E EqWait c (MLInv t (MEq a b)) = MNext c1.
    Hypothesis L : later E EqWait l0 c1 c2.
    Notation id := (length (mhist c)).
    Notation met := (met E EqWait l0 c1 c2 id t (MEq a b)).

    (** [true]: as many elements on both sides; and for each pair, a moment at which both had their
        values, and these were equal. *)
    Theorem C50_true : In (MRet id t (RBool true)) (mhist c2) ->
      exists l l', covers a c c2 l /\ covers b c c2 l' /\ length l = length l' /\
        forall k i j, nth_error l k = Some i -> nth_error l' k = Some j ->
          exists x y, met (vec_of a) i x (vec_of b) j y /\ eqv E x y = true.
    Proof.
      intros R. destruct (eq_result E l0 c0 m0 c t a b c1 c2 X S L _ R) as (z & l & l' & Q & Ca & Cb & O). injection Q as <-.
      apply verdict_true in O as [O1 O2]. exists l, l'. auto.
    Qed.
    (** [false]: after some pairs that were equal at some moment each, a pair that was different at some moment; or
        no more elements on one side only. *)
    Theorem C50_false : In (MRet id t (RBool false)) (mhist c2) ->
      exists l l' k, covers a c c2 l /\ covers b c c2 l' /\
        (forall k' i j, k' < k -> nth_error l k' = Some i -> nth_error l' k' = Some j ->
           exists x y, met (vec_of a) i x (vec_of b) j y /\ eqv E x y = true) /\
        ((exists i j x y, nth_error l k = Some i /\ nth_error l' k = Some j /\ met (vec_of a) i x (vec_of b) j y /\ eqv E x y = false) \/
         k = length l /\ k < length l' \/ k = length l' /\ k < length l).
    Proof.
      intros R. destruct (eq_result E l0 c0 m0 c t a b c1 c2 X S L _ R) as (z & l & l' & Q & Ca & Cb & O). injection Q as <-.
      apply verdict_false in O as (k & O1 & O2). exists l, l', k. split; [assumption|]. split; [assumption|]. split; [assumption|].
      destruct O2 as [(i & j & H1 & H2 & x & y & H3 & H4)|O2]; [left; exists i, j, x, y; auto|right; assumption].
    Qed.
    (** Nothing else is returned. *)
    Theorem C50_bool r : In (MRet id t r) (mhist c2) -> r = RBool true \/ r = RBool false.
    Proof. intros R. destruct (eq_result E l0 c0 m0 c t a b c1 c2 X S L _ R) as (z & _ & _ & -> & _). destruct z; auto. Qed.

    (** Comparing what shares its first element hangs. *)
    Theorem C50_self_hangs i : vec_of a = vec_of b -> starts_at a c i -> starts_at b c i -> mdone (mhist c2) id = false.
    Proof. intros. eapply eq_self; eauto. Qed.
  End Call.

  (** Elements *)
  Theorem C50_elem t w i w' j c1 c2 r : mstep E EqWait c (MLInv t (MEqElem w i w' j)) = MNext c1 -> later E EqWait l0 c1 c2 ->
    In (MRet (length (mhist c)) t r) (mhist c2) ->
    exists x y, r = RBool (eqv E x y) /\ met E EqWait l0 c1 c2 (length (mhist c)) t (MEqElem w i w' j) w i x w' j y.
  Proof. intros S L. exact (elem_result E l0 c0 m0 c t w i w' j c1 c2 X S L r). Qed.
  Theorem C50_elem_self_hangs t w i c1 c2 : mstep E EqWait c (MLInv t (MEqElem w i w i)) = MNext c1 -> later E EqWait l0 c1 c2 ->
    mdone (mhist c2) (length (mhist c)) = false.
  Proof. intros S L. exact (elem_self E l0 c0 m0 c t w i c1 c2 X S L). Qed.
End Several.

(** Two different vectors that nobody else uses: a thread that compares them alone finishes, with the answer of
    the equality of lists; whatever way [ConcurrentOption] has to get at the values. *)
Theorem C50_alone {V} (E : env V) md (c : mcfg V) t w w' l l' : mrun c t = None -> w <> w' -> contents c w l -> contents c w' l' ->
  exists c', alone E md t c c' /\ In (MRet (length (mhist c)) t (RBool (same E l l'))) (mhist c') /\ contents c' w l /\ contents c' w' l'.
Proof.
  intros R N C C'. set (o := (MEq (Whole w) (Whole w') : mop V)).
  set (c1 := MCfg (msh c) (upd (mrun c) t (Some (MCall (length (mhist c)) o (mop_prog E md o)))) (mhist c ++ [MInv (length (mhist c)) t o]) (mgiven c)).
  assert (S1 : mstep E md c (MLInv t o) = MNext c1) by (cbn [mstep]; rewrite R; reflexivity).
  destruct (al_run E md t (mop_prog E md o) c1 (MCall (length (mhist c)) o (mop_prog E md o)) _ (upd_same _ _ _) eq_refl (al_whole E md t w w' l l' (msh c) N C C'))
    as (r & c2 & c3 & A & R2 & (-> & D & D') & S3 & h & _ & H3).
  exists c3. assert (M3 : msh c3 = msh c2). { cbn [mstep] in S3. rewrite R2 in S3. cbn [m_prog] in S3. injection S3 as <-. reflexivity. }
  split; [|split; [|split]].
  - refine (mreach_step E md _ c c2 (MLStep t) c3 _ eq_refl S3). unfold alone in A. clear - A S1.
    induction A as [|d lb d' A IH P S]; [apply (mreach_step E md _ c c (MLInv t o)); [constructor|reflexivity|exact S1]|]. eapply mreach_step; [exact IH|exact P|exact S].
  - rewrite H3. apply in_or_app. right. apply in_or_app. right. now left.
  - unfold contents. rewrite M3. exact D.
  - unfold contents. rewrite M3. exact D'.
Qed.

(** ** Examples: vectors 0 and 1, of capacity 2 and maximum capacity 8 *)
Definition pair_of (a b : list nat) (w : nat) : list nat := match w with 0 => a | 1 => b | _ => [] end.
Section Play.
  Context (md : eqmode) (a b : list nat).
  Notation P := (mclient ex (pair_of a b)).
  Definition mokb (c : mcfg nat) (l : mlabel nat) : bool :=
    match l with
    | MLInv _ (MOp w o) => negb (mut_refs o) && negb (derefs o) && (mrequested w (length (pair_of a b w)) (mhist c) + request o <? wmod ex)
    | _ => true
    end.
  (** Steps that are not possible are left out. *)
  Definition mgo (c : mcfg nat) (l : mlabel nat) : mcfg nat :=
    if mokb c l then match mstep ex md c l with MNext c' => c' | _ => c end else c.
  Definition mplay (s : list (mlabel nat)) : mcfg nat := fold_left mgo s (mstart (pair_of a b) (fun _ => 2) (fun _ => 8)).
  Definition goes (c : mcfg nat) (l : mlabel nat) : bool := mokb c l && match mstep ex md c l with MNext _ => true | _ => false end.
  Fixpoint mtrail (c : mcfg nat) (s : list (mlabel nat)) : list (mcfg nat) :=
    match s with [] => [c] | l :: s' => if goes c l then c :: mtrail (mgo c l) s' else mtrail c s' end.

  Lemma mokb_client c l : mokb c l = true -> P c l.
  Proof.
    destruct l as [t [w o|x y|w i w' j]|t]; cbn [mokb mclient]; auto. rewrite !andb_true_iff, Nat.ltb_lt. intros ((O1 & O2) & O3). apply negb_true_iff in O1, O2.
    split; [|assumption]. split; [|split; [assumption|split; [assumption|discriminate]]].
    unfold ranges_ok, range_ok. destruct o; auto. destruct o; auto.
  Qed.
  Lemma goes_step c l : goes c l = true -> P c l /\ mstep ex md c l = MNext (mgo c l).
  Proof.
    unfold goes, mgo. rewrite andb_true_iff. intros [O S]. rewrite O. split; [now apply mokb_client|]. destruct (mstep ex md c l); [reflexivity|discriminate|discriminate].
  Qed.
  Lemma mgo_cases c l : goes c l = true \/ mgo c l = c.
  Proof. unfold goes, mgo. destruct (mokb c l); [|auto]. destruct (mstep ex md c l); auto. Qed.
  Lemma fold_later s : forall c, later ex md (pair_of a b) c (fold_left mgo s c).
  Proof.
    induction s as [|l s IH]; intros c; cbn [fold_left]; [constructor|]. destruct (mgo_cases c l) as [G| ->]; [|apply IH].
    apply goes_step in G as [G1 G2]. clear - G1 G2 IH. specialize (IH (mgo c l)). induction IH as [|d lb d' A IHA Q S]; [|eapply mreach_step; eauto].
    eapply mreach_step; [constructor|exact G1|exact G2].
  Qed.
  Lemma play_execution s : (length a <=? 2) && (length b <=? 2) = true -> mexecution ex md (pair_of a b) (fun _ => 2) (fun _ => 8) (mplay s).
  Proof.
    rewrite andb_true_iff, !Nat.leb_le. intros [A B]. assert (2 < wmod ex) by (apply Nat.ltb_lt; vm_compute; reflexivity).
    split; [exact ex_ok|]. split; [|apply fold_later]. intros w. split; [exact ex_cap|]. destruct w as [|[|w]]; cbn [pair_of length]; lia.
  Qed.
  Lemma play_later s s' : later ex md (pair_of a b) (mplay s) (mplay (s ++ s')).
  Proof. unfold mplay. rewrite fold_left_app. apply fold_later. Qed.
  Lemma play_step s l : goes (mplay s) l = true -> mstep ex md (mplay s) l = MNext (mplay (s ++ [l])).
  Proof. intros G. unfold mplay. rewrite fold_left_app. cbn [fold_left]. now apply goes_step. Qed.
  Lemma trail_cons c c' cs d : trail ex md (pair_of a b) c' cs d -> forall l, P c l -> mstep ex md c l = MNext c' -> trail ex md (pair_of a b) c (c :: cs) d.
  Proof.
    induction 1 as [|cs c1 l1 c2 T IH Q S]; intros l Pl Sl; [apply (trail_more ex md _ c [c] c l c'); [constructor|assumption|assumption]|].
    rewrite app_comm_cons. eapply trail_more; eauto.
  Qed.
  Lemma fold_trail s : forall c, trail ex md (pair_of a b) c (mtrail c s) (fold_left mgo s c).
  Proof.
    induction s as [|l s IH]; intros c; cbn [mtrail fold_left]; [constructor|]. destruct (mgo_cases c l) as [G|G].
    - rewrite G. apply goes_step in G as [G1 G2]. eapply trail_cons; eauto.
    - destruct (goes c l) eqn:G1; [|rewrite G; apply IH]. apply goes_step in G1 as [G1 G2]. eapply trail_cons; eauto.
  Qed.
  Lemma play_trail s s' : trail ex md (pair_of a b) (mplay s) (mtrail (mplay s) s') (mplay (s ++ s')).
  Proof. unfold mplay at 3. rewrite fold_left_app. apply fold_trail. Qed.
End Play.
Definition calls (t : nat) (o : mop nat) : list (mlabel nat) := MLInv t o :: repeat (MLStep t) 60.
Definition both := MEq (V := nat) (Whole 0) (Whole 1).
Definition swapped := MEq (V := nat) (Whole 1) (Whole 0).


(** Vectors [5; 6] and [5; 6] are equal, also after a [push] of 7 to both. *)
Definition pushed : list (mlabel nat) := calls 1 (MOp 0 (OPush 7)) ++ calls 1 (MOp 1 (OPush 7)).
Notation steps n t := (repeat (MLStep t) n).

Section Waiting.
  Definition waitingb (c : mcfg nat) (t w j : nat) : bool :=
    match mrun c t with
    | Some x => match m_prog x with
        | QSpin w' d a ag k =>
            match a as a0 return (res a0 -> bool) -> bool with
            | CasSt j' SOME RESERVED => fun ag => (w' =? w) && (j' =? j) &&
                forallb (fun r => Bool.eqb (ag r) (negb (fst r) && st_eqb (snd r) RESERVED))
                  [(true, NONE); (true, RESERVED); (true, SOME); (false, NONE); (false, RESERVED); (false, SOME)]
            | _ => fun _ => false
            end ag
        | _ => false
        end
    | None => false
    end.
  Lemma waitingb_waits c t w j : waitingb c t w j = true -> waits_for c t w j.
  Proof.
    unfold waitingb, waits_for. destruct (mrun c t) as [x|]; [|discriminate]. destruct (m_prog x) as [| | |w' d a ag k] eqn:P; try discriminate.
    destruct a; try discriminate. destruct e; try discriminate. destruct n; try discriminate. rewrite !andb_true_iff, !Nat.eqb_eq. intros ((-> & ->) & F).
    exists x, d, ag, k. split; [reflexivity|]. split; [exact P|]. intros [b s]. rewrite forallb_forall in F. apply eqb_prop, (F (b, s)). destruct b, s; simpl; tauto.
  Qed.
  Definition heldb (c : mcfg nat) (w A i v : nat) : bool :=
    (i <? cap (msh c w)) && existsb (Nat.eqb A) (srd (slots (msh c w) i)) && match sval (slots (msh c w) i) with Some v' => v' =? v | None => false end.
  Lemma heldb_held c w A i v : heldb c w A i v = true -> held (msh c w) A i v.
  Proof.
    unfold heldb, held. rewrite !andb_true_iff, Nat.ltb_lt, existsb_exists. intros ((H1 & (z & H2 & H3)) & H4). apply Nat.eqb_eq in H3. subst z.
    split; [assumption|]. split; [assumption|]. destruct (sval _); [|discriminate]. apply Nat.eqb_eq in H4. now subst.
  Qed.
End Waiting.

(** A comparison that thread 0 starts after [s], and that returns during [s']. *)
Definition answers_with (md : eqmode) (a b : list nat) (s : list (mlabel nat)) (o : mop nat) (s' : list (mlabel nat)) (z : bool) : bool :=
  goes md a b (mplay md a b s) (MLInv 0 o) &&
  existsb (fun e => match e with MRet id 0 (RBool z') => (id =? length (mhist (mplay md a b s))) && Bool.eqb z z' | _ => false end)
    (mhist (mplay md a b ((s ++ [MLInv 0 o]) ++ s'))).
Lemma answers_with_spec md a b s o s' z : (length a <=? 2) && (length b <=? 2) && answers_with md a b s o s' z = true ->
  mexecution ex md (pair_of a b) (fun _ => 2) (fun _ => 8) (mplay md a b s) /\
  mstep ex md (mplay md a b s) (MLInv 0 o) = MNext (mplay md a b (s ++ [MLInv 0 o])) /\
  later ex md (pair_of a b) (mplay md a b (s ++ [MLInv 0 o])) (mplay md a b ((s ++ [MLInv 0 o]) ++ s')) /\
  In (MRet (length (mhist (mplay md a b s))) 0 (RBool z)) (mhist (mplay md a b ((s ++ [MLInv 0 o]) ++ s'))).
Proof.
  rewrite andb_true_iff. intros [L A]. unfold answers_with in A. rewrite andb_true_iff, existsb_exists in A. destruct A as (G & e & H & T).
  split; [now apply play_execution|]. split; [now apply play_step|]. split; [apply play_later|].
  destruct e as [|id [|t] r|id t m|id t w d x]; try discriminate. destruct r as [| | |z'| | | | | | | | | | | | |]; try discriminate. apply andb_true_iff in T as [T1 T2]. apply Nat.eqb_eq in T1. apply eqb_prop in T2. now subst.
Qed.

Notation runs md a b c := (mexecution ex md (pair_of a b) (fun _ => 2) (fun _ => 8) c).
Notation called md a b s o s' z :=
  (runs md a b (mplay md a b s) /\
   mstep ex md (mplay md a b s) (MLInv 0 o) = MNext (mplay md a b (s ++ [MLInv 0 o])) /\
   later ex md (pair_of a b) (mplay md a b (s ++ [MLInv 0 o])) (mplay md a b ((s ++ [MLInv 0 o]) ++ s')) /\
   In (MRet (length (mhist (mplay md a b s))) 0 (RBool z)) (mhist (mplay md a b ((s ++ [MLInv 0 o]) ++ s')))).

Example C50_project_example : runs EqWait [5; 6] [5; 6] (mplay EqWait [5; 6] [5; 6] (pushed ++ calls 0 both)) /\
  mhist (mplay EqWait [5; 6] [5; 6] (pushed ++ calls 0 both)) =
    [MInv 0 1 (MOp 0 (OPush 7)); MAcc 0 1 0 0 (AcAdd 2 1); MAcc 0 1 0 0 (AcCap 2); MAcc 0 1 0 0 (AcInit 2 7); MRet 0 1 (RNat 2);
     MInv 5 1 (MOp 1 (OPush 7)); MAcc 5 1 1 0 (AcAdd 2 1); MAcc 5 1 1 0 (AcCap 2); MAcc 5 1 1 0 (AcInit 2 7); MRet 5 1 (RNat 2);
     MInv 10 0 both;
       MAcc 10 0 0 0 (AcCap 4); MAcc 10 0 0 0 (AcResv 3); MAcc 10 0 0 0 (AcSt 2 SOME);
       MAcc 10 0 1 0 (AcCap 4); MAcc 10 0 1 0 (AcResv 3); MAcc 10 0 1 0 (AcSt 2 SOME);
       MAcc 10 0 1 0 (AcRead 0 5); MAcc 10 0 0 0 (AcRead 0 5);
       MAcc 10 0 1 0 (AcRead 1 6); MAcc 10 0 0 0 (AcRead 1 6);
       MAcc 10 0 1 0 (AcRead 2 7); MAcc 10 0 0 0 (AcRead 2 7);
     MRet 10 0 (RBool true)].
Proof. split; [apply play_execution; reflexivity|]. vm_compute. reflexivity. Qed.
(** Thread 1 may call [set] while thread 0 compares. *)
Definition refs : list (mlabel nat) := calls 1 (MOp 1 (OGet 0)) ++ calls 1 (MOp 1 (OGet 1)).
Example C50_no_fault_example : runs EqWait [5; 6] [5; 6] (mplay EqWait [5; 6] [5; 6] (refs ++ MLInv 0 both :: steps 16 0)) /\
  mclient ex (pair_of [5; 6] [5; 6]) (mplay EqWait [5; 6] [5; 6] (refs ++ MLInv 0 both :: steps 16 0)) (MLInv 1 (MOp 1 (OElem 0 (ESet 9)))).
Proof. split; [apply play_execution; reflexivity|]. apply mokb_client. vm_compute. reflexivity. Qed.
Example C50_true_example : called EqWait [5; 6] [5; 6] pushed both (steps 60 0) true.
Proof. apply answers_with_spec. vm_compute. reflexivity. Qed.
Example C50_false_example : called EqWait [5; 6] [5; 7] [] both (steps 60 0) false /\ called EqWait [5; 6] [5] [] both (steps 60 0) false.
Proof. split; apply answers_with_spec; vm_compute; reflexivity. Qed.
Example C50_bool_example : called EqWait [5; 6] [5; 6] pushed both (steps 60 0) true.
Proof. exact C50_true_example. Qed.
Definition elems : list (mlabel nat) := calls 0 (MOp 0 (OGet 0)) ++ refs.
Example C50_elem_example : called EqWait [5; 6] [5; 6] elems (MEqElem 0 0 1 0) (steps 60 0) true /\ called EqWait [5; 6] [5; 6] elems (MEqElem 0 0 1 1) (steps 60 0) false.
Proof. split; apply answers_with_spec; vm_compute; reflexivity. Qed.
(** [v == v], [v.slice(0..1) == v] and [v[0] == v[0]] start, and never return. *)
Definition sliced : list (mlabel nat) := calls 0 (MOp 0 (OSlice (rng 0 1))) ++ elems.
Definition self_start (o : mop nat) : Prop := runs EqWait [5; 6] [5; 6] (mplay EqWait [5; 6] [5; 6] sliced) /\
  mstep ex EqWait (mplay EqWait [5; 6] [5; 6] sliced) (MLInv 0 o) = MNext (mplay EqWait [5; 6] [5; 6] (sliced ++ [MLInv 0 o])).
Lemma self_starts o : goes EqWait [5; 6] [5; 6] (mplay EqWait [5; 6] [5; 6] sliced) (MLInv 0 o) = true -> self_start o.
Proof. split; [apply play_execution; reflexivity|]. now apply play_step. Qed.
Example C50_self_hangs_example : self_start (MEq (Whole 0) (Whole 0)) /\ self_start (MEq (Part 0 (CSlice 0 1)) (Whole 0)) /\
  starts_at (Whole 0) (mplay EqWait [5; 6] [5; 6] sliced) 0 /\ starts_at (Part 0 (CSlice 0 1)) (mplay EqWait [5; 6] [5; 6] sliced) 0.
Proof.
  split; [apply self_starts; vm_compute; reflexivity|]. split; [apply self_starts; vm_compute; reflexivity|].
  split; (split; [reflexivity|apply Nat.ltb_lt; vm_compute; reflexivity]).
Qed.
Example C50_elem_self_hangs_example : self_start (MEqElem 0 0 0 0).
Proof. apply self_starts. vm_compute. reflexivity. Qed.
Definition restb (s : slot nat) (v : nat) : bool :=
  match s with Slot SOME (Some v') None [] => v' =? v | _ => false end.
Definition contentsb (c : mcfg nat) (w : nat) (l : list nat) : bool :=
  (resv (msh c w) =? length l) && (wrtn (msh c w) <=? length l) && (length l <=? cap (msh c w)) &&
  forallb (fun iv => restb (slots (msh c w) (fst iv)) (snd iv)) (combine (seq 0 (length l)) l).
Lemma contentsb_contents c w l : contentsb c w l = true -> contents c w l.
Proof.
  unfold contentsb, contents. rewrite !andb_true_iff, Nat.eqb_eq, !Nat.leb_le, forallb_forall. intros (((H1 & H2) & H3) & H4). repeat (split; [assumption|]).
  intros i v Hi. assert (L : i < length l) by (apply nth_error_Some; congruence).
  assert (In (i, v) (combine (seq 0 (length l)) l)) as K.
  { apply nth_error_In with (n := i). clear - Hi. enough (forall k, nth_error (combine (seq k (length l)) l) i = Some (k + i, v)) by apply H. revert i Hi.
    induction l as [|x l IH]; intros [|i] Hi k; cbn in *; try discriminate; [injection Hi as <-; do 2 f_equal; lia|]. rewrite IH by assumption. do 2 f_equal. lia. }
  apply H4 in K. cbn [fst snd] in K. destruct (slots (msh c w) i) as [[] [v'|] [u|] [|? ?]]; cbn [restb] in K; try discriminate. apply Nat.eqb_eq in K. now subst.
Qed.
Example C50_alone_example : runs EqWait [5; 6] [5; 6] (mplay EqWait [5; 6] [5; 6] pushed) /\ mrun (mplay EqWait [5; 6] [5; 6] pushed) 0 = None /\
  contents (mplay EqWait [5; 6] [5; 6] pushed) 0 [5; 6; 7] /\ contents (mplay EqWait [5; 6] [5; 6] pushed) 1 [5; 6; 7] /\ same ex [5; 6; 7] [5; 6; 7] = true.
Proof.
  split; [apply play_execution; reflexivity|]. split; [vm_compute; reflexivity|].
  split; [apply contentsb_contents; vm_compute; reflexivity|]. split; [apply contentsb_contents; vm_compute; reflexivity|]. vm_compute. reflexivity.
Qed.

(** ** What does not hold *)

(** Two threads that compare the same two vectors, [a == b] and [b == a], can wait for each other forever. *)
Definition cross : list (mlabel nat) := (MLInv 0 both :: steps 14 0) ++ (MLInv 1 swapped :: steps 14 1).
Definition cross_end : mcfg nat := mplay EqWait [5; 6] [5; 6] cross.
Definition idb (c : mcfg nat) (t id : nat) : bool := match mrun c t with Some x => m_id x =? id | None => false end.
Lemma idb_not_done a b c c' t id : runs EqWait a b c' -> idb c t id = true -> mrun c' t = mrun c t -> mdone (mhist c') id = false.
Proof. intros X I R. unfold idb in I. rewrite <- R in I. destruct (mrun c' t) as [x|] eqn:Rx; [|discriminate]. apply Nat.eqb_eq in I. subst id. exact (not_done ex _ _ _ c' t x X Rx). Qed.
Lemma cross_stays a b c c' x y id id' : runs EqWait a b c -> later ex EqWait (pair_of a b) c c' ->
  heldb c 0 (agent 0 0) 0 x && waitingb c 0 1 0 && heldb c 1 (agent 1 0) 0 y && waitingb c 1 0 0 && idb c 0 id && idb c 1 id' = true ->
  mdone (mhist c') id = false /\ mdone (mhist c') id' = false.
Proof.
  rewrite !andb_true_iff. intros X L (((((H0 & W0) & H1) & W1) & I0) & I1). assert (X' : runs EqWait a b c') by (exact (execution_later ex _ _ _ _ _ X L)).
  destruct (crossed ex (pair_of a b) (fun _ => 2) (fun _ => 8) c 0 1 0 0 1 0 x y c' X (n_Sn 0) (heldb_held _ _ _ _ _ H0) (waitingb_waits _ _ _ _ W0) (heldb_held _ _ _ _ _ H1) (waitingb_waits _ _ _ _ W1) L) as [R0 R1].
  split; [exact (idb_not_done a b c c' 0 id X' I0 R0)|exact (idb_not_done a b c c' 1 id' X' I1 R1)].
Qed.
Lemma cross_stuck c' : later ex EqWait (pair_of [5; 6] [5; 6]) cross_end c' -> mdone (mhist c') 0 = false /\ mdone (mhist c') 5 = false.
Proof.
  intros L. refine (cross_stays [5; 6] [5; 6] cross_end c' 5 5 0 5 (play_execution EqWait [5; 6] [5; 6] cross eq_refl) L _). vm_compute. reflexivity.
Qed.
Theorem C50_cross_refuted : ~ (forall (E : env nat) l0 c0 m0 c id t a b, mexecution E EqWait l0 c0 m0 c -> vec_of a <> vec_of b -> mopen (mhist c) id t (MEq a b) ->
  exists c', later E EqWait l0 c c' /\ mdone (mhist c') id = true).
Proof.
  intros H. destruct (H ex (pair_of [5; 6] [5; 6]) (fun _ => 2) (fun _ => 8) cross_end 0 0 (Whole 0) (Whole 1)
    (play_execution EqWait [5; 6] [5; 6] cross eq_refl) (n_Sn 0)) as (c' & L & D).
  - split; vm_compute; reflexivity.
  - apply cross_stuck in L as [L _]. congruence.
Qed.

(** [a == b] may be [true] although the two vectors were different at every moment: they are compared
    element by element. *)
Definition differb (c : mcfg nat) (i x y : nat) : bool :=
  (i <? cap (msh c 0)) && negb (st_eqb (sst (slots (msh c 0) i)) NONE) && match sval (slots (msh c 0) i) with Some v => v =? x | None => false end &&
  (i <? cap (msh c 1)) && negb (st_eqb (sst (slots (msh c 1) i)) NONE) && match sval (slots (msh c 1) i) with Some v => v =? y | None => false end.
Lemma differb_holds c i x y : differb c i x y = true -> holds c 0 i x /\ holds c 1 i y.
Proof.
  unfold differb, holds. rewrite !andb_true_iff, !Nat.ltb_lt, !negb_true_iff. intros (((((A & B) & C) & A') & B') & C').
  split; (split; [assumption|split; [|]]).
  - intros N. now rewrite N in B.
  - destruct (sval (slots (msh c 0) i)); [|discriminate]. apply Nat.eqb_eq in C. now subst.
  - intros N. now rewrite N in B'.
  - destruct (sval (slots (msh c 1) i)); [|discriminate]. apply Nat.eqb_eq in C'. now subst.
Qed.
Definition torn : list (mlabel nat) := steps 20 0 ++ calls 1 (MOp 1 (OElem 0 (ESet 9))) ++ calls 1 (MOp 1 (OElem 1 (ESet 0))) ++ steps 60 0.
Definition torn_now (c : mcfg nat) : bool := differb c 1 0 1 || differb c 0 0 9.
Lemma torn_trail : exists c c1 cs c2, runs EqWait [0; 0] [0; 1] c /\ mstep ex EqWait c (MLInv 0 both) = MNext c1 /\
  trail ex EqWait (pair_of [0; 0] [0; 1]) c1 cs c2 /\ In (MRet (length (mhist c)) 0 (RBool true)) (mhist c2) /\
  forall d, In d cs -> exists i x y, holds d 0 i x /\ holds d 1 i y /\ eqv ex x y = false.
Proof.
  destruct (answers_with_spec EqWait [0; 0] [0; 1] refs both torn true) as (X & S & _ & R); [vm_compute; reflexivity|].
  exists (mplay EqWait [0; 0] [0; 1] refs), (mplay EqWait [0; 0] [0; 1] (refs ++ [MLInv 0 both])),
         (mtrail EqWait [0; 0] [0; 1] (mplay EqWait [0; 0] [0; 1] (refs ++ [MLInv 0 both])) torn), (mplay EqWait [0; 0] [0; 1] ((refs ++ [MLInv 0 both]) ++ torn)).
  split; [exact X|]. split; [exact S|]. split; [apply play_trail|]. split; [exact R|].
  assert (F : forallb torn_now (mtrail EqWait [0; 0] [0; 1] (mplay EqWait [0; 0] [0; 1] (refs ++ [MLInv 0 both])) torn) = true) by (vm_compute; reflexivity).
  rewrite forallb_forall in F. intros d H. apply F in H. unfold torn_now in H. apply orb_true_iff in H as [H|H]; apply differb_holds in H as [H1 H2].
  - exists 1, 0, 1. split; [exact H1|]. split; [exact H2|]. reflexivity.
  - exists 0, 0, 9. split; [exact H1|]. split; [exact H2|]. reflexivity.
Qed.
Theorem C50_snapshot_refuted : ~ (forall (E : env nat) l0 c0 m0 c t w w' c1 cs c2, mexecution E EqWait l0 c0 m0 c ->
  mstep E EqWait c (MLInv t (MEq (Whole w) (Whole w'))) = MNext c1 -> trail E EqWait l0 c1 cs c2 -> In (MRet (length (mhist c)) t (RBool true)) (mhist c2) ->
  exists d, In d cs /\ forall i x y, holds d w i x -> holds d w' i y -> eqv E x y = true).
Proof.
  intros H. destruct torn_trail as (c & c1 & cs & c2 & X & S & T & R & F).
  destruct (H ex _ _ _ c 0 0 1 c1 cs c2 X S T R) as (d & Hd & Eq). destruct (F d Hd) as (i & x & y & H1 & H2 & N). rewrite (Eq i x y H1 H2) in N. discriminate.
Qed.

(** If [ConcurrentOption] tries to get the handle once, [a == b] may be [false] although the two vectors are
    the same all the time: somebody else is looking at an element. *)
Definition samesb (c : mcfg nat) : bool := differb c 0 5 5 && differb c 1 6 6 && (resv (msh c 0) =? 2) && (resv (msh c 1) =? 2).
Definition steady {V} (c : mcfg V) (w : nat) (l : list V) : Prop :=
  resv (msh c w) = length l /\ forall i v, nth_error l i = Some v -> holds c w i v.
Lemma samesb_steady c : samesb c = true -> steady c 0 [5; 6] /\ steady c 1 [5; 6].
Proof.
  unfold samesb. rewrite !andb_true_iff, !Nat.eqb_eq. intros (((A & B) & C) & D). apply differb_holds in A as [A A'], B as [B B'].
  split; (split; [assumption|]); intros [|[|[|i]]] v H; cbn in H; try discriminate; injection H as <-; assumption.
Qed.
Theorem C50_try_refuted : ~ (forall (E : env nat) l0 c0 m0 c t w w' c1 cs c2 l, mexecution E EqTry l0 c0 m0 c -> w <> w' -> (forall x, eqv E x x = true) ->
  mstep E EqTry c (MLInv t (MEq (Whole w) (Whole w'))) = MNext c1 -> trail E EqTry l0 c1 cs c2 -> (forall d, In d cs -> steady d w l /\ steady d w' l) ->
  ~ In (MRet (length (mhist c)) t (RBool false)) (mhist c2)).
Proof.
  intros H. set (s := MLInv 1 both :: steps 14 1).
  destruct (answers_with_spec EqTry [5; 6] [5; 6] s both (steps 60 0) false) as (X & S & _ & R); [vm_compute; reflexivity|].
  refine (H ex _ _ _ (mplay EqTry [5; 6] [5; 6] s) 0 0 1 _ (mtrail EqTry [5; 6] [5; 6] (mplay EqTry [5; 6] [5; 6] (s ++ [MLInv 0 both])) (steps 60 0)) _ [5; 6] X (n_Sn 0) Nat.eqb_refl S (play_trail _ _ _ _ _) _ R).
  assert (F : forallb samesb (mtrail EqTry [5; 6] [5; 6] (mplay EqTry [5; 6] [5; 6] (s ++ [MLInv 0 both])) (steps 60 0)) = true) by (vm_compute; reflexivity).
  rewrite forallb_forall in F. exact (fun d Hd => samesb_steady d (F d Hd)).
Qed.

(** If it looks at the values without handles, comparing with an element while another thread [set]s it is a data
    race. *)
Definition faultsb (md : eqmode) (c : mcfg nat) (l : mlabel nat) : bool := match mstep ex md c l with MFault _ => true | _ => false end.
Lemma faultsb_fault md c l : faultsb md c l = true -> exists f, mstep ex md c l = MFault f.
Proof. unfold faultsb. destruct (mstep ex md c l) as [d|f|]; [discriminate|eauto|discriminate]. Qed.
Definition looks : list (mlabel nat) := refs ++ (MLInv 0 both :: steps 16 0) ++ MLInv 1 (MOp 1 (OElem 0 (ESet 9))) :: steps 1 1.
Theorem C50_look_refuted : ~ (forall (E : env nat) l0 c0 m0 c l f, mexecution E EqRef l0 c0 m0 c -> mclient E l0 c l -> mstep E EqRef c l <> MFault f).
Proof.
  intros H. assert (F : faultsb EqRef (mplay EqRef [5; 6] [5; 6] looks) (MLStep 1) = true) by (vm_compute; reflexivity).
  apply faultsb_fault in F as [f S].
  exact (H ex _ _ _ _ (MLStep 1) f (play_execution EqRef [5; 6] [5; 6] looks eq_refl) Logic.I S).
Qed.
