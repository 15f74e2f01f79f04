(** * What one vector sees of an execution with several vectors is an execution with closures that call back. *)

From Coq Require Import List Arith Bool Lia.
From Verif.Model Require Import Prog Mem Deps State Elem Vec Excl Machine Reentrant Several.
From Verif Require Import Client Spec Seq Nested Compare.
From Verif.Logic Require Import Inv WP Post Sound Reentry Nesting.
Import ListNotations.
Local Arguments agent : simpl never.

Section Cover.
  Context {V : Type} (E : env V) (w : nat).
  Notation rp := (rprog V (ret V)).
  Implicit Types (st : list rp) (G : list grant).

  Definition ready st : bool := match st with [] => true | RClo _ :: _ => true | _ => false end.
  (** What a thread can do in the vector without an access. *)
  Inductive settle : list rp -> list grant -> list rp -> list grant -> Prop :=
  | se_refl st G : settle st G st G
  | se_ret r st G st' G' : settle st (G ++ grants r) st' G' -> settle (RRet r :: st) G st' G'
  | se_pan m st G st' G' : settle st G st' G' -> settle (RPan m :: st) G st' G'
  | se_clo k a st G st' G' : settle (k a :: st) G st' G' -> settle (RClo k :: st) G st' G'
  | se_inv o st G st' G' : ready st = true -> inner_op o -> has_grant (with_answers (fun _ => None) o) G = true ->
      settle (rop_prog E o :: st) G st' G' -> settle st G st' G'.

  Fixpoint cov (p : mprog V (ret V)) st G : Prop :=
    match p with
    | QRet _ | QPan _ => exists G', settle st G [] G'
    | QAct w' d a k =>
        if w' =? w then exists k' rest G', settle st G (RAct a k' :: rest) G' /\ d = length rest /\ forall y, cov (k y) (k' y :: rest) G'
        else forall y, cov (k y) st G
    | QSpin w' d a again k =>
        if w' =? w then exists again' k' rest G', settle st G (RSpin a again' k' :: rest) G' /\ d = length rest /\
                                                 (forall y, again' y = again y) /\ forall y, cov (k y) (k' y :: rest) G'
        else forall y, cov (k y) st G
    end.

  Lemma has_grant_incl o G G1 : incl G G1 -> has_grant (V := V) o G = true -> has_grant o G1 = true.
  Proof.
    intros H. unfold has_grant. destruct (needs o) as [g|]; [|auto]. rewrite !existsb_exists. intros (x & I & Ex). eauto.
  Qed.
  Lemma settle_incl st G st' G' : settle st G st' G' -> forall G1, incl G G1 -> exists G1', settle st G1 st' G1' /\ incl G' G1'.
  Proof.
    induction 1 as [st G|r st G st' G' S IH|m st G st' G' S IH|k a st G st' G' S IH|o st G st' G' R I H S IH]; intros G1 L.
    - exists G1. split; [constructor|assumption].
    - destruct (IH (G1 ++ grants r)) as (G1' & S1 & L1).
      + intros x Hx. apply in_app_or in Hx as [Hx|Hx]; apply in_or_app; auto.
      + exists G1'. split; [now constructor|assumption].
    - destruct (IH G1 L) as (G1' & S1 & L1). exists G1'. split; [now constructor|assumption].
    - destruct (IH G1 L) as (G1' & S1 & L1). exists G1'. split; [econstructor; eauto|assumption].
    - destruct (IH G1 L) as (G1' & S1 & L1). exists G1'. split; [|assumption].
      eapply se_inv; eauto using has_grant_incl.
  Qed.
  Lemma cov_incl p : forall st G G1, incl G G1 -> cov p st G -> cov p st G1.
  Proof.
    induction p as [r|m|w' d a k IH|w' d a ag k IH]; intros st G G1 L H; cbn [cov] in *.
    - destruct H as (G' & S). destruct (settle_incl _ _ _ _ S _ L) as (G1' & S1 & _). eauto.
    - destruct H as (G' & S). destruct (settle_incl _ _ _ _ S _ L) as (G1' & S1 & _). eauto.
    - destruct (w' =? w).
      + destruct H as (k' & rest & G' & S & D & H). destruct (settle_incl _ _ _ _ S _ L) as (G1' & S1 & L1).
        exists k', rest, G1'. split; [assumption|]. split; [assumption|]. intros y. eapply IH; eauto.
      + intros y. eapply IH; eauto.
    - destruct (w' =? w).
      + destruct H as (ag' & k' & rest & G' & S & D & Ag & H). destruct (settle_incl _ _ _ _ S _ L) as (G1' & S1 & L1).
        exists ag', k', rest, G1'. split; [assumption|]. split; [assumption|]. split; [assumption|]. intros y. eapply IH; eauto.
      + intros y. eapply IH; eauto.
  Qed.

  (** A thread that has nothing left to do. *)
  Definition over st : Prop := st = [] \/ (exists r, st = [RRet r]) \/ (exists m, st = [RPan m]).
  Lemma over_settle st G : over st -> exists G', settle st G [] G' /\ incl G G'.
  Proof.
    intros [->|[(r & ->)|(m & ->)]].
    - exists G. split; [constructor|apply incl_refl].
    - exists (G ++ grants r). split; [constructor; constructor|]. intros x Hx; apply in_or_app; auto.
    - exists G. split; [constructor; constructor|apply incl_refl].
  Qed.
  Lemma settle_trans st1 G1 st2 G2 : settle st1 G1 st2 G2 -> forall st3 G3, settle st2 G2 st3 G3 -> settle st1 G1 st3 G3.
  Proof. induction 1; intros st3 G3 H3; [assumption| | | |]; econstructor; eauto. Qed.

  (** Starting an inner call. *)
  Lemma settle_start st G o : over st -> inner_op o -> has_grant (with_answers (fun _ => None) o) G = true ->
    exists G', settle st G [rop_prog E o] G' /\ incl G G'.
  Proof.
    intros O I H. destruct (over_settle st G O) as (G' & S & L). exists G'. split; [|assumption].
    eapply settle_trans; [exact S|]. eapply se_inv; [reflexivity|exact I|eapply has_grant_incl; eauto|constructor].
  Qed.

  Lemma cov_pre st G st1 G1 p : settle st G st1 G1 -> incl G G1 -> (forall G', incl G1 G' -> cov p st1 G') -> cov p st G.
  Proof.
    intros S L H. specialize (H G1 (incl_refl _)). clear L. revert st G st1 G1 S H.
    induction p as [r|m|w' d a k IH|w' d a ag k IH]; intros st G st1 G1 S H; cbn [cov] in *.
    - destruct H as (G' & S'). exists G'. eapply settle_trans; eauto.
    - destruct H as (G' & S'). exists G'. eapply settle_trans; eauto.
    - destruct (w' =? w); [|eauto]. destruct H as (k' & rest & G' & S' & D & H). exists k', rest, G'. split; [eapply settle_trans; eauto|auto].
    - destruct (w' =? w); [|eauto]. destruct H as (ag' & k' & rest & G' & S' & D & H). exists ag', k', rest, G'. split; [eapply settle_trans; eauto|auto].
  Qed.

  Lemma cov_skip {A} w1 (p : prog V A) (K : A -> mprog V (ret V)) st G : w1 <> w -> over st ->
    (forall x, cov (K x) st G) -> cov (qbind (on w1 p) K) st G.
  Proof.
    intros N O H. apply Nat.eqb_neq in N. induction p as [r|m|a k IH|a ag k IH]; cbn [on qbind cov].
    - apply H.
    - destruct (over_settle st G O) as (G' & S & _). eauto.
    - rewrite N. auto.
    - rewrite N. auto.
  Qed.
  Lemma cov_run {A} (p : prog V A) (f : A -> ret V) (K : A -> mprog V (ret V)) G :
    (forall x, cov (K x) [RRet (f x)] G) -> cov (qbind (on w p) K) [lift (fmap f p)] G.
  Proof.
    intros H. induction p as [r|m|a k IH|a ag k IH]; cbn [on qbind cov fmap bind lift].
    - apply H.
    - eexists. constructor. constructor.
    - rewrite Nat.eqb_refl. do 3 eexists. split; [constructor|]. split; [reflexivity|]. exact IH.
    - rewrite Nat.eqb_refl. do 4 eexists. split; [constructor|]. split; [reflexivity|]. split; [reflexivity|]. exact IH.
  Qed.

  Lemma has_elem (o : eop V) i G : In (GElem i) G -> has_grant (OElem i o) G = true.
  Proof. intros H. unfold has_grant. cbn [needs]. apply existsb_exists. exists (GElem i). split; [assumption|]. simpl. apply Nat.eqb_refl. Qed.

  Lemma cov_ret_over r st G : over st -> cov (QRet r) st G.
  Proof. intros O. cbn [cov]. destruct (over_settle st G O) as (G' & S & _). eauto. Qed.

  (** The comparison of two elements. *)
  Lemma cov_option_eq w1 i w2 j (K : bool -> mprog V (ret V)) st G : over st ->
    (w1 = w -> In (GElem i) G) -> (w2 = w -> In (GElem j) G) ->
    (forall b st' G', over st' -> incl G G' -> cov (K b) st' G') ->
    cov (qbind (option_eq E EqWait w1 i w2 j) K) st G.
  Proof.
    intros O H1 H2 HK. unfold option_eq, q_get, q_wait, q_drop, qdo, second.
    destruct (Nat.eqb_spec w1 w) as [->|N1].
    - (* the left element is in this vector *)
      destruct (settle_start st G (RElemMap i) O I) as (G1 & S1 & L1). { apply has_elem, H1. reflexivity. }
      eapply cov_pre; [exact S1|exact L1|]. intros G2 L2. assert (L : incl G G2) by (eapply incl_tran; eauto).
      cbn [qbind cov]. rewrite Nat.eqb_refl. unfold rop_prog, rmap, r_elem_map, r_option_map, spin_handle. cbn [lift rbind].
      do 4 eexists. split; [constructor|]. split; [reflexivity|]. split; [reflexivity|]. intros [h x]. cbn [fst].
      destruct h; cbn [lift rbind qbind cov chk].
      2:{ apply HK; [|assumption]. right. right. eauto. }
      rewrite Nat.eqb_refl. do 3 eexists. split; [constructor|]. split; [reflexivity|]. intros [].
      destruct (Nat.eqb_spec w w2) as [<-|N2].
      + (* so is the right one *)
        rewrite Nat.eqb_refl. do 4 eexists. split.
        { eapply (se_inv (RPlain (OElem j (EMap (fun v => Some v))))); [reflexivity|exact I|apply has_elem, L, H2; reflexivity|].
          cbn [rop_prog op_prog eop_prog]. unfold elem_map, option_map, spin_handle, fmap. cbn [bind lift]. apply se_refl. }
        split; [reflexivity|]. split; [reflexivity|]. intros [h' x']. cbn [fst]. destruct h'; cbn [bind lift chk rbind qbind cov].
        * rewrite Nat.eqb_refl. do 3 eexists. split; [constructor|]. split; [reflexivity|]. intros []. cbn [bind lift].
          do 3 eexists. split; [constructor|]. split; [reflexivity|]. intros y. cbn [bind lift].
          do 3 eexists. split; [constructor|]. split; [reflexivity|]. intros []. cbn [bind lift chk].
          do 3 eexists. split. { apply se_ret. eapply (se_clo _ (Some (AVal y))). cbn [lift rbind]. apply se_refl. }
          split; [reflexivity|]. intros x0. cbn [lift rbind].
          do 3 eexists. split; [constructor|]. split; [reflexivity|]. intros []. cbn [lift rbind to_val chk].
          apply HK; [right; left; eauto|]. intros z Hz. apply in_or_app. left. auto.
        * rewrite Nat.eqb_refl. do 3 eexists. split. { apply se_pan. eapply (se_clo _ None). cbn [lift rbind]. apply se_refl. }
          split; [reflexivity|]. intros x0. cbn [lift rbind].
          do 3 eexists. split; [constructor|]. split; [reflexivity|]. intros []. cbn [lift rbind to_val chk].
          apply HK; [right; right; eauto|assumption].
      + assert (N2' : w2 <> w) by congruence. apply Nat.eqb_neq in N2'. rewrite !N2'. intros [h' x']. cbn [fst].
        destruct h'; cbn [qbind cov]; rewrite ?N2', ?Nat.eqb_refl.
        * intros []. intros y. intros []. do 3 eexists. split. { eapply (se_clo _ (Some (AVal y))). cbn [lift rbind]. apply se_refl. }
          split; [reflexivity|]. intros x0. cbn [lift rbind].
          do 3 eexists. split; [constructor|]. split; [reflexivity|]. intros []. cbn [lift rbind to_val chk].
          apply HK; [right; left; eauto|assumption].
        * do 3 eexists. split. { eapply (se_clo _ None). cbn [lift rbind]. apply se_refl. }
          split; [reflexivity|]. intros x0. cbn [lift rbind].
          do 3 eexists. split; [constructor|]. split; [reflexivity|]. intros []. cbn [lift rbind to_val chk].
          apply HK; [right; right; eauto|assumption].
    - apply Nat.eqb_neq in N1. cbn [qbind cov]. rewrite N1. intros [h x]. cbn [fst]. destruct h; cbn [qbind cov].
      2:{ apply HK; [assumption|apply incl_refl]. }
      rewrite !N1. intros []. destruct (Nat.eqb_spec w2 w) as [->|N2].
      + rewrite N1. apply Nat.eqb_neq in N1. destruct (settle_start st G (RPlain (OElem j (EMap (fun v => Some v)))) O I) as (G1 & S1 & L1).
        { apply has_elem, H2. reflexivity. }
        do 4 eexists. split; [eapply settle_trans; [exact S1|]|].
        { cbn [rop_prog op_prog eop_prog]. unfold elem_map, option_map, spin_handle, fmap. cbn [bind lift]. apply se_refl. }
        split; [reflexivity|]. split; [reflexivity|]. apply Nat.eqb_neq in N1. intros [h' x']. cbn [fst].
        destruct h'; cbn [bind lift chk rbind qbind cov]; rewrite ?Nat.eqb_refl, ?N1.
        * do 3 eexists. split; [constructor|]. split; [reflexivity|]. intros []. cbn [bind lift].
          do 3 eexists. split; [constructor|]. split; [reflexivity|]. intros y. cbn [bind lift].
          do 3 eexists. split; [constructor|]. split; [reflexivity|]. intros []. cbn [bind lift chk].
          intros x0 []. apply HK; [right; left; eauto|assumption].
        * intros x0 []. apply HK; [right; right; eauto|assumption].
      + apply Nat.eqb_neq in N2. rewrite ?N2. intros [h' x']. cbn [fst]. destruct h'; cbn [qbind cov]; rewrite ?N2, ?N1.
        * intros [] y [] x0 []. apply HK; [assumption|apply incl_refl].
        * intros x0 []. apply HK; [assumption|apply incl_refl].
  Qed.

  Lemma cov_assoc A B (p : mprog V A) (f : A -> mprog V B) (g : B -> mprog V (ret V)) : forall st G,
    cov (qbind p (fun x => qbind (f x) g)) st G -> cov (qbind (qbind p f) g) st G.
  Proof.
    induction p as [r|m|w' d a k IH|w' d a ag k IH]; intros st G H; cbn [qbind cov] in *; auto.
    - destruct (w' =? w); [|auto]. destruct H as (k' & rest & G' & S & D & H). exists k', rest, G'. auto.
    - destruct (w' =? w); [|auto]. destruct H as (ag' & k' & rest & G' & S & D & Q & H). exists ag', k', rest, G'. auto.
  Qed.

  Lemma cov_elem_iters w1 w2 (K : bool -> mprog V (ret V)) l : forall l' st G, over st ->
    (w1 = w -> forall i, In i l -> In (GElem i) G) -> (w2 = w -> forall j, In j l' -> In (GElem j) G) ->
    (forall b st' G', over st' -> incl G G' -> cov (K b) st' G') ->
    cov (qbind (eq_elem_iters E EqWait w1 w2 l l') K) st G.
  Proof.
    induction l as [|i l IH]; intros [|j l'] st G O H1 H2 HK; cbn [eq_elem_iters]; try (cbn [qbind]; apply HK; [assumption|apply incl_refl]).
    apply cov_assoc. apply cov_option_eq; [assumption|intros Q; apply H1; [assumption|now left]|intros Q; apply H2; [assumption|now left]|].
    intros b st' G' O' L. destruct b.
    - apply IH; [assumption| | |].
      + intros Q x Hx. apply L, H1; [assumption|now right].
      + intros Q x Hx. apply L, H2; [assumption|now right].
      + intros b st2 G2 O2 L2. apply HK; [assumption|]. eapply incl_tran; eauto.
    - cbn [qbind]. apply HK; assumption.
  Qed.

  Lemma cov_iter (p : prog V (list nat)) (o : rop V) (K : list nat -> mprog V (ret V)) G :
    inner_op o -> rop_prog E o = lift (fmap RElems p) -> has_grant (with_answers (fun _ => None) o) G = true ->
    (forall l G', incl G G' -> (forall i, In i l -> In (GElem i) G') -> cov (K l) [] G') -> cov (qbind (on w p) K) [] G.
  Proof.
    intros I P H HK. destruct (settle_start [] G o (or_introl eq_refl) I H) as (G1 & S1 & L1).
    eapply cov_pre; [exact S1|exact L1|]. intros G2 L2. rewrite P. apply cov_run. intros l.
    eapply cov_pre; [apply se_ret, se_refl|intros x Hx; apply in_or_app; now left|]. intros G3 L3. apply HK.
    - intros x Hx. apply L3, in_or_app. left. auto.
    - intros i Hi. apply L3, in_or_app. right. cbn [grants]. now apply in_map.
  Qed.
  Lemma cov_side a (K : list nat -> mprog V (ret V)) G : (forall x, a = Part w x -> In (GSlice x) G) ->
    (forall l G', incl G G' -> (vec_of a = w -> forall i, In i l -> In (GElem i) G') -> cov (K l) [] G') ->
    cov (qbind (side_iter a) K) [] G.
  Proof.
    intros H HK. destruct a as [w'|w' x]; cbn [side_iter vec_of] in *.
    - destruct (Nat.eq_dec w' w) as [->|N].
      + apply (cov_iter _ (RPlain OIter)); [exact I|reflexivity|reflexivity|]. auto.
      + apply cov_skip; [assumption|now left|]. intros l. apply HK; [apply incl_refl|contradiction].
    - destruct (Nat.eq_dec w' w) as [->|N].
      + apply (cov_iter _ (RPlain (OSl x SIter))); [exact I|reflexivity| |auto]. unfold has_grant. cbn [with_answers needs].
        apply existsb_exists. exists (GSlice x). split; [apply H; reflexivity|]. simpl. now rewrite !Nat.eqb_refl.
      + apply cov_skip; [assumption|now left|]. intros l. apply HK; [apply incl_refl|contradiction].
  Qed.

  Lemma cov_start o G : compares o = true -> (forall g, In (w, g) (mneeds o) -> In g G) -> cov (mop_prog E EqWait o) [] G.
  Proof.
    intros C H. destruct o as [w' o|a b|w1 i w2 j]; [discriminate| |]; cbn [mop_prog mneeds] in *.
    - unfold side_eq. apply cov_assoc. apply cov_side.
      { intros x ->. apply H. apply in_or_app. left. now left. }
      intros l G1 L1 H1. apply cov_assoc. apply cov_side.
      { intros x ->. apply L1, H. apply in_or_app. right. now left. }
      intros l' G2 L2 H2. apply cov_elem_iters; [now left|intros Q i Hi; apply L2; auto|assumption|].
      intros r st' G' O _. now apply cov_ret_over.
    - apply cov_option_eq; [now left|intros ->; apply H; now left|intros ->; apply H; right; now left|].
      intros r st' G' O _. now apply cov_ret_over.
  Qed.
End Cover.

Section Project.
  Context {V : Type} (E : env V) (l0 : nat -> list V) (c0 m0 : nat -> nat) (w : nat).
  Definition quiet (r : rcfg V) (l : rlabel V) : Prop :=
    rclient E false false (length (l0 w)) r l /\ match l with NLClear | NLReserve _ => False | _ => True end.
  Notation rreach r r' := (rreach E quiet r r').
  Implicit Types (c : mcfg V) (r : rcfg V) (h : list (mevent V)).

  Lemma rreach_trans r1 r2 r3 : rreach r1 r2 -> rreach r2 r3 -> rreach r1 r3.
  Proof. intros A B. induction B as [|r l r' B IH P S]; [assumption|]. econstructor; eauto. Qed.
  Lemma rreach_one r l r' : quiet r l -> rstep E r l = RNext r' -> rreach r r'.
  Proof. intros P S. econstructor; [constructor|eassumption|eassumption]. Qed.

  Lemma requested_snoc n0 h e : mrequested w n0 (h ++ [e]) = mrequested w n0 h + masked w e.
  Proof. unfold mrequested. now rewrite fold_left_app. Qed.
  Lemma req_snoc n0 (l : list (event V)) e : (e <> EClear) -> requested n0 (l ++ [e]) = requested n0 l + match e with EInv _ _ o => request o | _ => 0 end.
  Proof. intros H. unfold requested. rewrite fold_left_app. simpl. destruct e; auto; contradiction. Qed.
  Lemma request_answers u u' (o : rop V) : request (with_answers u o) = request (with_answers u' o).
  Proof. now destruct o. Qed.
  Lemma inner_request u (o : rop V) : inner_op o -> request (with_answers u o) = 0.
  Proof. destruct o as [o| | | | | | | | | | | | | | | |]; simpl; try contradiction; auto. destruct o; simpl; try contradiction; auto. Qed.
  Lemma inner_allowed u (o : rop V) : inner_op o -> allowed E false false (with_answers u o).
  Proof.
    destruct o as [o| | | | | | | | | | | | | | | |]; simpl; try contradiction; [|intros _; repeat split; auto; discriminate].
    destruct o; simpl; try contradiction; try (intros _; repeat split; auto; discriminate).
    all: match goal with x : eop _ |- _ => destruct x | x : sop _ |- _ => destruct x end; simpl; try contradiction; intros _; repeat split; auto; discriminate.
  Qed.
  Lemma shows_requested f n0 h l : shows w h l -> requested n0 (map (flat_event f) l) = mrequested w n0 h.
  Proof.
    induction 1 as [|h l id id' t o S IH|h l id id' t d a S IH|h l id id' t o r S IH N|h l id id' t o m S IH N|h l e S IH El|h l t e S IH Cm In];
      rewrite ?map_app; cbn [map flat_event]; try (rewrite req_snoc by discriminate); rewrite ?requested_snoc; try rewrite IH; cbn [masked];
      rewrite ?Nat.eqb_refl; try lia; auto.
    - destruct e as [? ? [w' o| |]| | |]; simpl in *; try lia. apply Nat.eqb_neq in El. rewrite El. lia.
    - rewrite req_snoc by (destruct e; simpl in *; try contradiction; discriminate). rewrite IH.
      destruct e; simpl in *; try contradiction; try lia. destruct In as [_ In]. rewrite inner_request by assumption. lia.
  Qed.

  (** Thread [t] settles. *)
  Lemma settle_run h t fs st G st' G' : settle E st G st' G' -> forall r, shows w h (rhist r) -> comparing h t ->
    mrequested w (length (l0 w)) h < wmod E -> stack t (rrun r) = fs -> map (@f_prog V) fs = st -> incl G (rgiven r) ->
    exists r' fs', rreach r r' /\ shows w h (rhist r') /\ rsh r' = rsh r /\ stack t (rrun r') = fs' /\ map (@f_prog V) fs' = st' /\
                   incl G' (rgiven r') /\ incl (rgiven r) (rgiven r') /\ forall u, u <> t -> stack u (rrun r') = stack u (rrun r).
  Proof.
    intros S. revert fs. induction S as [st G|x st G st' G' S IH|m st G st' G' S IH|k a st G st' G' S IH|o st G st' G' R I H S IH];
      intros fs r Sh Cm W St M L.
    - exists r, fs. split; [constructor|]. repeat (split; [assumption || reflexivity || apply incl_refl|]). auto.
    - destruct fs as [|[id o p] fs]; [discriminate|]. cbn [map f_prog] in M. injection M as -> M.
      set (r1 := RCfg (rsh r) (Reentrant.put t fs (rrun r)) (rhist r ++ [NRet id t (length fs) x]) (rgiven r ++ grants x) (answers r)).
      assert (S1 : rreach r r1) by (apply (rreach_one r (NLStep t)); [split; exact Logic.I|]; cbn [rstep]; rewrite St; reflexivity).
      destruct (IH fs r1) as (r' & fs' & R1 & Sh1 & Q1 & St1 & M1 & L1 & L2 & O1); subst r1; cbn [rsh rrun rhist rgiven] in *; auto.
      + eapply sh_inner; eauto. reflexivity.
      + rewrite stack_put, Nat.eqb_refl. reflexivity.
      + intros z Hz. apply in_app_or in Hz as [Hz|Hz]; apply in_or_app; auto.
      + exists r', fs'. split; [eapply rreach_trans; eauto|]. repeat (split; [assumption|]). split; [|intros u N; rewrite O1 by assumption; rewrite stack_put; apply Nat.eqb_neq in N; now rewrite N].
        intros z Hz. apply L2, in_or_app. now left.
    - destruct fs as [|[id o p] fs]; [discriminate|]. cbn [map f_prog] in M. injection M as -> M.
      set (r1 := RCfg (rsh r) (Reentrant.put t fs (rrun r)) (rhist r ++ [NPan id t (length fs) m]) (rgiven r) (answers r)).
      assert (S1 : rreach r r1) by (apply (rreach_one r (NLStep t)); [split; exact Logic.I|]; cbn [rstep]; rewrite St; reflexivity).
      destruct (IH fs r1) as (r' & fs' & R1 & Sh1 & Q1 & St1 & M1 & L1 & L2 & O1); subst r1; cbn [rsh rrun rhist rgiven] in *; auto.
      + eapply sh_inner; eauto. reflexivity.
      + rewrite stack_put, Nat.eqb_refl. reflexivity.
      + exists r', fs'. split; [eapply rreach_trans; eauto|]. repeat (split; [assumption|]). intros u N; rewrite O1 by assumption; rewrite stack_put; apply Nat.eqb_neq in N; now rewrite N.
    - destruct fs as [|[id o p] fs]; [discriminate|]. cbn [map f_prog] in M. injection M as -> M.
      set (r1 := RCfg (rsh r) (Reentrant.put t (Frame id o (k a) :: fs) (rrun r)) (rhist r) (rgiven r) (answers r ++ [(id, a)])).
      assert (S1 : rreach r r1) by (apply (rreach_one r (NLAns t a)); [split; exact Logic.I|]; cbn [rstep]; rewrite St; reflexivity).
      destruct (IH (Frame id o (k a) :: fs) r1) as (r' & fs' & R1 & Sh1 & Q1 & St1 & M1 & L1 & L2 & O1); subst r1; cbn [rsh rrun rhist rgiven] in *; auto.
      + rewrite stack_put, Nat.eqb_refl. reflexivity.
      + cbn [map f_prog]. now rewrite M.
      + exists r', fs'. split; [eapply rreach_trans; eauto|]. repeat (split; [assumption|]). intros u N; rewrite O1 by assumption; rewrite stack_put; apply Nat.eqb_neq in N; now rewrite N.
    - set (r1 := RCfg (rsh r) (Reentrant.put t (Frame (length (rhist r)) o (rop_prog E o) :: fs) (rrun r))
                      (rhist r ++ [NInv (length (rhist r)) t (length fs) o]) (rgiven r) (answers r)).
      assert (S1 : rreach r r1).
      { apply (rreach_one r (NLInv t o)).
        - split; [|exact Logic.I]. cbn [rclient]. split.
          + now apply inner_allowed.
          + unfold flatten. rewrite (shows_requested _ _ _ _ Sh), inner_request by assumption. lia.
        - cbn [rstep]. rewrite St. assert (U : user_turn fs = true).
          { destruct fs as [|[id' o' p] fs]; [reflexivity|]. subst st. cbn [map f_prog ready] in R. cbn [user_turn f_prog]. destruct p; auto. }
          rewrite U, (has_grant_incl _ _ _ L H). reflexivity. }
      destruct (IH (Frame (length (rhist r)) o (rop_prog E o) :: fs) r1) as (r' & fs' & R1 & Sh1 & Q1 & St1 & M1 & L1 & L2 & O1); subst r1; cbn [rsh rrun rhist rgiven] in *; auto.
      + eapply sh_inner; eauto. split; [reflexivity|assumption].
      + rewrite stack_put, Nat.eqb_refl. reflexivity.
      + cbn [map f_prog]. now rewrite M.
      + exists r', fs'. split; [eapply rreach_trans; eauto|]. repeat (split; [assumption|]). intros u N; rewrite O1 by assumption; rewrite stack_put; apply Nat.eqb_neq in N; now rewrite N.
  Qed.

  (** ** The unfinished calls *)
  Record calls c : Prop := {
    ca_open : forall t x, mrun c t = Some x -> mopen (mhist c) (m_id x) t (m_op x);
    ca_done : forall id, mdone (mhist c) id = true -> id < length (mhist c)
  }.
  Lemma mdone_app h l id : mdone (h ++ l) id = mdone h id || mdone l id.
  Proof. unfold mdone. apply existsb_app. Qed.
  Lemma mopen_app h l id t o : mopen h id t o -> mdone l id = false -> mopen (h ++ l) id t o.
  Proof.
    intros [N D] Dl. split; [|rewrite mdone_app, D; exact Dl].
    rewrite nth_error_app1; [assumption|]. apply nth_error_Some. now rewrite N.
  Qed.
  Lemma accs_done id t v d l j : mdone (map (@MAcc V id t v d) l) j = false.
  Proof. induction l as [|a l IH]; [reflexivity|]. exact IH. Qed.
  Lemma calls_start : calls (mstart l0 c0 m0).
  Proof. split; simpl; intros; discriminate. Qed.
  Lemma calls_after c t x p v d s l : calls c -> mrun c t = Some x -> calls (mafter t c x p v d s l).
  Proof.
    intros C X. unfold mafter. split; cbn [mrun mhist].
    - intros u y. unfold upd. destruct (Nat.eqb_spec u t) as [->|N]; intros Y.
      + injection Y as <-. cbn [m_id m_op]. apply mopen_app; [exact (ca_open _ C _ _ X)|apply accs_done].
      + apply mopen_app; [exact (ca_open _ C _ _ Y)|apply accs_done].
    - intros id. rewrite mdone_app, accs_done, orb_false_r, app_length. intros D. apply (ca_done _ C) in D. lia.
  Qed.
  Lemma calls_end c t x e l : calls c -> mrun c t = Some x -> (forall j, is_mend j e = (m_id x =? j)) ->
    calls (MCfg (msh c) (upd (mrun c) t None) (mhist c ++ [e]) l).
  Proof.
    intros C X He. pose proof (ca_open _ C _ _ X) as [Nx Dx]. split; cbn [mrun mhist].
    - intros u y. unfold upd. destruct (Nat.eqb_spec u t) as [->|N]; [discriminate|]. intros Y.
      pose proof (ca_open _ C _ _ Y) as [Ny Dy]. apply mopen_app; [now split|]. unfold mdone. simpl. rewrite He, orb_false_r.
      apply Nat.eqb_neq. intros Q. rewrite Q, Ny in Nx. injection Nx. congruence.
    - intros id. rewrite mdone_app, app_length. simpl. rewrite orb_false_r, He. intros D. apply orb_prop in D as [D|D].
      + apply (ca_done _ C) in D. lia.
      + apply Nat.eqb_eq in D as <-. assert (m_id x < length (mhist c)) by (apply nth_error_Some; now rewrite Nx). lia.
  Qed.
  Lemma calls_step md c l c' : calls c -> mstep E md c l = MNext c' -> calls c'.
  Proof.
    intros C S. destruct l as [t o|t]; cbn [mstep] in S.
    - destruct (mrun c t) as [x|] eqn:X; [discriminate|]. destruct (mhas (mgiven c) o); [|discriminate]. injection S as <-. split; cbn [mrun mhist].
      + intros u y. unfold upd. destruct (Nat.eqb_spec u t) as [->|N]; intros Y.
        * injection Y as <-. cbn [m_id m_op]. split.
          -- rewrite nth_error_app2, Nat.sub_diag by lia. reflexivity.
          -- rewrite mdone_app. simpl. rewrite orb_false_r. destruct (mdone (mhist c) (length (mhist c))) eqn:D; [|reflexivity].
             apply (ca_done _ C) in D. lia.
        * apply mopen_app; [exact (ca_open _ C _ _ Y)|reflexivity].
      + intros id. rewrite mdone_app, app_length. simpl. rewrite orb_false_r. intros D. apply (ca_done _ C) in D. lia.
    - destruct (mrun c t) as [x|] eqn:X; [|discriminate]. destruct (m_prog x) as [r|m|v d a k|v d a ag k].
      + injection S as <-. apply (calls_end c t x); auto.
      + injection S as <-. apply (calls_end c t x); auto.
      + destruct (exec E (agent t d) a (msh c v)) as [y s l|f]; [|discriminate]. injection S as <-. now apply calls_after.
      + destruct (exec E (agent t d) a (msh c v)) as [y s l|f]; [|discriminate].
        destruct (ag y); injection S as <-; [assumption|]. now apply calls_after.
  Qed.
  Lemma calls_reach md P c : mreach E md P (mstart l0 c0 m0) c -> calls c.
  Proof. induction 1; [apply calls_start|]. eapply calls_step; eauto. Qed.

  (** ** The simulation *)
  Definition thread_sim (x : option (mcall V)) (fs : list (frame V)) (G : list grant) : Prop :=
    match x with
    | None => fs = []
    | Some x =>
        match m_op x with
        | MOp v o => if v =? w then exists id p, fs = [Frame id (RPlain o) (lift p)] /\ m_prog x = on w p
                     else fs = [] /\ exists p, m_prog x = on v p
        | _ => cov E w (m_prog x) (map (@f_prog V) fs) G
        end
    end.
  Record msim c r : Prop := {
    ms_sh : rsh r = msh c w;
    ms_run : forall t, thread_sim (mrun c t) (stack t (rrun r)) (rgiven r);
    ms_given : forall g, In (w, g) (mgiven c) -> In g (rgiven r);
    ms_hist : shows w (mhist c) (rhist r);
    ms_bound : mrequested w (length (l0 w)) (mhist c) < wmod E
  }.

  Lemma thread_incl x fs G G' : incl G G' -> thread_sim x fs G -> thread_sim x fs G'.
  Proof.
    intros L. destruct x as [x|]; [|auto]. cbn [thread_sim]. destruct (m_op x); auto; apply cov_incl; assumption.
  Qed.
  Lemma shows_accs id id' t d l : forall h k, shows w h k -> shows w (h ++ map (MAcc id t w d) l) (k ++ map (NAcc id' t d) l).
  Proof.
    induction l as [|a l IH]; intros h k S; simpl; [now rewrite !app_nil_r|].
    specialize (IH (h ++ [MAcc id t w d a]) (k ++ [NAcc id' t d a])). rewrite <- !app_assoc in IH. apply IH. now constructor.
  Qed.
  Lemma shows_other_accs id t v d l : v <> w -> forall h k, shows w h k -> shows w (h ++ map (MAcc id t v d) l) k.
  Proof.
    intros N. induction l as [|a l IH]; intros h k S; simpl; [now rewrite !app_nil_r|].
    specialize (IH (h ++ [MAcc id t v d a]) k). rewrite <- !app_assoc in IH. apply IH. now constructor.
  Qed.
  Lemma requested_accs id t v d l n0 : forall h, mrequested w n0 (h ++ map (MAcc id t v d) l) = mrequested w n0 h.
  Proof.
    induction l as [|a l IH]; intros h; simpl; [now rewrite !app_nil_r|].
    specialize (IH (h ++ [MAcc id t v d a])). rewrite <- !app_assoc in IH. rewrite <- app_comm_cons in IH. simpl in IH. rewrite IH, requested_snoc. simpl. lia.
  Qed.
  Lemma mhas_in l (o : mop V) : mhas l o = true -> forall g, In g (mneeds o) -> In g l.
  Proof.
    unfold mhas. rewrite forallb_forall. intros H [v g] I. apply H in I. apply existsb_exists in I as ([v' g'] & I & Q).
    unfold mgrant_eqb in Q. cbn [fst snd] in Q. apply andb_prop in Q as [Q1 Q2]. apply Nat.eqb_eq in Q1 as <-. apply grant_eqb_eq in Q2 as <-. assumption.
  Qed.
  Lemma grant_refl g : grant_eqb g g = true.
  Proof. destruct g; simpl; rewrite ?Nat.eqb_refl; reflexivity. Qed.

  Notation step' := (mstep E EqWait).

  (** An access to [w], once the thread has settled. *)
  Lemma sim_act c r t x fr rest p q d s l : msim c r -> mrun c t = Some x -> stack t (rrun r) = fr :: rest -> d = length rest ->
    thread_sim (Some (MCall (m_id x) (m_op x) p)) (Frame (f_id fr) (f_op fr) q :: rest) (rgiven r) ->
    msim (mafter t c x p w d s l) (rafter t r fr rest q s l).
  Proof.
    intros M X St D T. split; unfold mafter, rafter; cbn [msh rsh mrun rrun mgiven rgiven mhist rhist].
    - now rewrite upd_same.
    - intros u. rewrite stack_put. unfold upd. destruct (Nat.eqb_spec u t) as [->|N]; [exact T|exact (ms_run _ _ M u)].
    - exact (ms_given _ _ M).
    - rewrite D. apply shows_accs. exact (ms_hist _ _ M).
    - rewrite requested_accs. exact (ms_bound _ _ M).
  Qed.
  (** An access to another vector. *)
  Lemma sim_other c r t x p v d s l : v <> w -> msim c r -> mrun c t = Some x ->
    thread_sim (Some (MCall (m_id x) (m_op x) p)) (stack t (rrun r)) (rgiven r) -> msim (mafter t c x p v d s l) r.
  Proof.
    intros N M X T. split; unfold mafter; cbn [msh rsh mrun rrun mgiven rgiven mhist rhist].
    - rewrite upd_other by auto. exact (ms_sh _ _ M).
    - intros u. unfold upd. destruct (Nat.eqb_spec u t) as [->|N']; [exact T|exact (ms_run _ _ M u)].
    - exact (ms_given _ _ M).
    - apply shows_other_accs; [assumption|]. exact (ms_hist _ _ M).
    - rewrite requested_accs. exact (ms_bound _ _ M).
  Qed.

  (** A thread in a comparison settles. *)
  Lemma sim_settle c r t x st G' : calls c -> msim c r -> mrun c t = Some x -> compares (m_op x) = true ->
    settle E (map (@f_prog V) (stack t (rrun r))) (rgiven r) st G' ->
    exists r', rreach r r' /\ map (@f_prog V) (stack t (rrun r')) = st /\ incl G' (rgiven r') /\ rsh r' = rsh r /\ incl (rgiven r) (rgiven r') /\
               shows w (mhist c) (rhist r') /\ forall u, u <> t -> stack u (rrun r') = stack u (rrun r).
  Proof.
    intros C M X K S. destruct (settle_run (mhist c) t (stack t (rrun r)) _ _ _ _ S r) as (r' & fs & R1 & Sh & Q & St & Mp & L1 & L2 & O);
      [exact (ms_hist _ _ M)| |exact (ms_bound _ _ M)|reflexivity|reflexivity|apply incl_refl|].
    - exists (m_id x), (m_op x). split; [exact (ca_open _ C _ _ X)|assumption].
    - exists r'. rewrite St, Mp. split; [assumption|]. repeat (split; [assumption || reflexivity|]). assumption.
  Qed.
  (** The configuration in between, in which the thread stands at its access. *)
  Lemma settled c r t x r' p : msim c r -> mrun c t = Some x -> compares (m_op x) = true ->
    cov E w p (map (@f_prog V) (stack t (rrun r'))) (rgiven r') -> rsh r' = rsh r -> incl (rgiven r) (rgiven r') -> shows w (mhist c) (rhist r') ->
    (forall u, u <> t -> stack u (rrun r') = stack u (rrun r)) ->
    msim (MCfg (msh c) (upd (mrun c) t (Some (MCall (m_id x) (m_op x) p))) (mhist c) (mgiven c)) r'.
  Proof.
    intros M X K Cv Sh L Hs O. split; cbn [msh mrun mhist mgiven].
    - rewrite Sh. exact (ms_sh _ _ M).
    - intros u. unfold upd. destruct (Nat.eqb_spec u t) as [->|N].
      + cbn [thread_sim m_op m_prog]. destruct (m_op x); [discriminate|assumption|assumption].
      + rewrite O by assumption. eapply thread_incl; [exact L|]. exact (ms_run _ _ M u).
    - intros g Hg. apply L. exact (ms_given _ _ M _ Hg).
    - assumption.
    - exact (ms_bound _ _ M).
  Qed.

  Theorem msim_step c l c' r : calls c -> msim c r -> mclient E l0 c l -> step' c l = MNext c' -> exists r', rreach r r' /\ msim c' r'.
  Proof.
    intros C M P S. destruct l as [t o|t]; cbn [mstep] in S.
    - (* a call *)
      pose proof (ms_run _ _ M t) as Rt. destruct (mrun c t) as [x|] eqn:X; [discriminate|]. cbn [thread_sim] in Rt.
      destruct (mhas (mgiven c) o) eqn:H; [|discriminate]. injection S as <-.
      assert (Cmp : compares o = true -> exists r', rreach r r' /\
        msim (MCfg (msh c) (upd (mrun c) t (Some (MCall (length (mhist c)) o (mop_prog E EqWait o)))) (mhist c ++ [MInv (length (mhist c)) t o]) (mgiven c)) r').
      { intros K. exists r. split; [constructor|]. split; cbn [msh mrun mhist mgiven].
        - exact (ms_sh _ _ M).
        - intros u. unfold upd. destruct (Nat.eqb_spec u t) as [->|N]; [|exact (ms_run _ _ M u)]. rewrite Rt.
          cbn [thread_sim m_op m_prog map]. assert (Cv : cov E w (mop_prog E EqWait o) [] (rgiven r)).
          { apply cov_start; [assumption|]. intros g Hg. apply (ms_given _ _ M). eapply mhas_in; eauto. }
          destruct o; [discriminate|exact Cv|exact Cv].
        - exact (ms_given _ _ M).
        - apply sh_other; [exact (ms_hist _ _ M)|]. destruct o; [discriminate|exact I|exact I].
        - rewrite requested_snoc. destruct o; [discriminate| |]; simpl; rewrite Nat.add_0_r; exact (ms_bound _ _ M). }
      destruct o as [v o|a b|w1 i w2 j]; [|apply Cmp; reflexivity|apply Cmp; reflexivity]. clear Cmp.
      cbn [mclient] in P. destruct P as [Al Wm]. cbn [mop_prog]. destruct (Nat.eqb_spec v w) as [->|N].
      + assert (Hg : has_grant o (rgiven r) = true).
        { unfold has_grant. destruct (needs o) as [g|] eqn:Ng; [|reflexivity]. apply existsb_exists. exists g. split; [|apply grant_refl].
          apply (ms_given _ _ M). eapply mhas_in; [exact H|]. cbn [mneeds]. rewrite Ng. now left. }
        set (r' := RCfg (rsh r) (Reentrant.put t (Frame (length (rhist r)) (RPlain o) (rop_prog E (RPlain o)) :: []) (rrun r))
                        (rhist r ++ [NInv (length (rhist r)) t 0 (RPlain o)]) (rgiven r) (answers r)).
        exists r'. split.
        * apply (rreach_one r (NLInv t (RPlain o))).
          -- split; [|exact I]. cbn [rclient with_answers]. split; [assumption|]. unfold flatten. rewrite (shows_requested _ _ _ _ (ms_hist _ _ M)). assumption.
          -- cbn [rstep]. rewrite Rt. cbn [user_turn with_answers]. rewrite Hg. reflexivity.
        * split; subst r'; cbn [msh mrun mhist mgiven rsh rrun rhist rgiven].
          -- exact (ms_sh _ _ M).
          -- intros u. rewrite stack_put. unfold upd. destruct (Nat.eqb_spec u t) as [->|N]; [|exact (ms_run _ _ M u)].
             cbn [thread_sim m_op m_prog]. rewrite Nat.eqb_refl. exists (length (rhist r)), (op_prog E o). now split.
          -- exact (ms_given _ _ M).
          -- constructor. exact (ms_hist _ _ M).
          -- rewrite requested_snoc. cbn [masked]. rewrite Nat.eqb_refl. assumption.
      + exists r. split; [constructor|]. split; cbn [msh mrun mhist mgiven].
        * exact (ms_sh _ _ M).
        * intros u. unfold upd. destruct (Nat.eqb_spec u t) as [->|N']; [|exact (ms_run _ _ M u)].
          cbn [thread_sim m_op m_prog]. apply Nat.eqb_neq in N. rewrite N. eauto.
        * exact (ms_given _ _ M).
        * apply sh_other; [exact (ms_hist _ _ M)|exact N].
        * rewrite requested_snoc. cbn [masked]. apply Nat.eqb_neq in N. rewrite N, Nat.add_0_r. exact (ms_bound _ _ M).
    - (* a step *)
      pose proof (ms_run _ _ M t) as Rt. destruct (mrun c t) as [x|] eqn:X; [|discriminate]. pose proof (ca_open _ C _ _ X) as [Nx Dx].
      cbn [thread_sim] in Rt. destruct (compares (m_op x)) eqn:K.
      + (* of a comparison *)
        assert (Rt' : cov E w (m_prog x) (map (@f_prog V) (stack t (rrun r))) (rgiven r)) by (destruct (m_op x); [discriminate|exact Rt|exact Rt]). clear Rt.
        assert (Thr : forall p fs G, cov E w p (map (@f_prog V) fs) G -> thread_sim (Some (MCall (m_id x) (m_op x) p)) fs G)
          by (intros p fs G Cv; cbn [thread_sim m_op m_prog]; destruct (m_op x); [discriminate|exact Cv|exact Cv]).
        assert (Ends : forall e, (forall h, elsewhere w h e <-> forall t o, nth_error h (m_id x) <> Some (MInv (m_id x) t (MOp w o))) -> masked w e = 0 ->
                  cov E w (m_prog x) (map (@f_prog V) (stack t (rrun r))) (rgiven r) -> (exists G', settle E (map (@f_prog V) (stack t (rrun r))) (rgiven r) [] G') ->
                  forall gv, (forall g, In (w, g) gv -> In (w, g) (mgiven c)) ->
                  exists r', rreach r r' /\ msim (MCfg (msh c) (upd (mrun c) t None) (mhist c ++ [e]) gv) r').
        { intros e He Hm _ (G' & Se) gv Hgv. destruct (sim_settle c r t x _ _ C M X K Se) as (r' & R1 & St & L1 & Sh & L2 & Hs & O).
          exists r'. split; [assumption|]. split; cbn [msh mrun mhist mgiven].
          - rewrite Sh. exact (ms_sh _ _ M).
          - intros u. unfold upd. destruct (Nat.eqb_spec u t) as [->|N]; [cbn [thread_sim]; now destruct (stack t (rrun r'))|].
            rewrite O by assumption. eapply thread_incl; [exact L2|]. exact (ms_run _ _ M u).
          - intros g Hg. apply L2, (ms_given _ _ M), Hgv. assumption.
          - apply sh_other; [assumption|]. apply He. intros t' o'. rewrite Nx. intros Q. injection Q as _ Q. rewrite Q in K. discriminate.
          - rewrite requested_snoc, Hm, Nat.add_0_r. exact (ms_bound _ _ M). }
        destruct (m_prog x) as [y|m|v d a k|v d a ag k] eqn:Pr; cbn [cov] in Rt'.
        * injection S as <-. apply Ends; auto; [intros h; reflexivity|]. destruct (m_op x); [discriminate| |]; cbn [mgrants]; intros g; rewrite app_nil_r; auto.
        * injection S as <-. apply Ends; auto. intros h; reflexivity.
        * clear Ends. destruct (exec E (agent t d) a (msh c v)) as [y s l|f] eqn:Ex; [|discriminate]. injection S as <-. destruct (Nat.eqb_spec v w) as [->|N].
          -- destruct Rt' as (k' & rest & G' & Se & D & Cv). destruct (sim_settle c r t x _ _ C M X K Se) as (r' & R1 & St & L1 & Sh & L2 & Hs & O).
             destruct (stack t (rrun r')) as [|fr fs] eqn:Sk; [discriminate|]. cbn [map] in St. injection St as Fp Fs. subst rest. rewrite map_length in D.
             exists (rafter t r' fr fs (k' y) s l). split.
             ++ eapply rreach_trans; [exact R1|]. apply (rreach_one r' (NLStep t)); [split; exact I|]. cbn [rstep]. rewrite Sk, Fp, <- D, Sh, (ms_sh _ _ M), Ex. reflexivity.
             ++ assert (M' : msim (MCfg (msh c) (upd (mrun c) t (Some (MCall (m_id x) (m_op x) (QAct w d a k)))) (mhist c) (mgiven c)) r').
                { apply (settled c r t x r'); auto. rewrite Sk. cbn [map cov]. rewrite Nat.eqb_refl. exists k', (map (@f_prog V) fs), (rgiven r'). rewrite Fp. split; [constructor|].
                  split; [now rewrite map_length|]. intros z. eapply cov_incl; [exact L1|]. apply Cv. }
                pose proof (sim_act _ r' t (MCall (m_id x) (m_op x) (QAct w d a k)) fr fs (k y) (k' y) d s l M') as A.
                cbn [mrun] in A. specialize (A (upd_same _ _ _) Sk D). cbn [m_id m_op] in A.
                specialize (A (Thr (k y) (Frame (f_id fr) (f_op fr) (k' y) :: fs) _ (cov_incl E w _ _ _ _ L1 (Cv y)))).
                destruct A as [A1 A2 A3 A4 A5]. unfold mafter in *. cbn [msh mrun mhist mgiven m_id m_op] in *. split; cbn [msh mrun mhist mgiven]; auto.
                intros u. specialize (A2 u). unfold upd in *. destruct (u =? t); exact A2.
          -- exists r. split; [constructor|]. apply sim_other; auto.
        * clear Ends. destruct (exec E (agent t d) a (msh c v)) as [y s l|f] eqn:Ex; [|discriminate]. destruct (ag y) eqn:Ag; injection S as <-; [exists r; split; [constructor|assumption]|].
          destruct (Nat.eqb_spec v w) as [->|N].
          -- destruct Rt' as (ag' & k' & rest & G' & Se & D & Aq & Cv). destruct (sim_settle c r t x _ _ C M X K Se) as (r' & R1 & St & L1 & Sh & L2 & Hs & O).
             destruct (stack t (rrun r')) as [|fr fs] eqn:Sk; [discriminate|]. cbn [map] in St. injection St as Fp Fs. subst rest. rewrite map_length in D.
             exists (rafter t r' fr fs (k' y) s l). split.
             ++ eapply rreach_trans; [exact R1|]. apply (rreach_one r' (NLStep t)); [split; exact I|]. cbn [rstep]. rewrite Sk, Fp, <- D, Sh, (ms_sh _ _ M), Ex, Aq, Ag. reflexivity.
             ++ assert (M' : msim (MCfg (msh c) (upd (mrun c) t (Some (MCall (m_id x) (m_op x) (QSpin w d a ag k)))) (mhist c) (mgiven c)) r').
                { apply (settled c r t x r'); auto. rewrite Sk. cbn [map cov]. rewrite Nat.eqb_refl. exists ag', k', (map (@f_prog V) fs), (rgiven r'). rewrite Fp. split; [constructor|].
                  split; [now rewrite map_length|]. split; [assumption|]. intros z. eapply cov_incl; [exact L1|]. apply Cv. }
                pose proof (sim_act _ r' t (MCall (m_id x) (m_op x) (QSpin w d a ag k)) fr fs (k y) (k' y) d s l M') as A.
                cbn [mrun] in A. specialize (A (upd_same _ _ _) Sk D). cbn [m_id m_op] in A.
                specialize (A (Thr (k y) (Frame (f_id fr) (f_op fr) (k' y) :: fs) _ (cov_incl E w _ _ _ _ L1 (Cv y)))).
                destruct A as [A1 A2 A3 A4 A5]. unfold mafter in *. cbn [msh mrun mhist mgiven m_id m_op] in *. split; cbn [msh mrun mhist mgiven]; auto.
                intros u. specialize (A2 u). unfold upd in *. destruct (u =? t); exact A2.
          -- exists r. split; [constructor|]. apply sim_other; auto.
      + (* of a method *)
        destruct (m_op x) as [v o| |] eqn:Op; [|discriminate|discriminate]. destruct (Nat.eqb_spec v w) as [->|N].
        * destruct Rt as (id & p & St & Pr). destruct p as [y|m|a k|a ag k]; cbn [on] in Pr; rewrite Pr in S.
          -- injection S as <-. exists (RCfg (rsh r) (Reentrant.put t [] (rrun r)) (rhist r ++ [NRet id t 0 y]) (rgiven r ++ grants y) (answers r)). split.
             ++ apply (rreach_one r (NLStep t)); [split; exact I|]. cbn [rstep]. rewrite St. reflexivity.
             ++ split; cbn [msh mrun mhist mgiven rsh rrun rhist rgiven].
                ** exact (ms_sh _ _ M).
                ** intros u. rewrite stack_put. unfold upd. destruct (Nat.eqb_spec u t) as [->|N]; [reflexivity|].
                   eapply thread_incl; [|exact (ms_run _ _ M u)]. intros z Hz. apply in_or_app. now left.
                ** intros g Hg. apply in_app_or in Hg as [Hg|Hg]; apply in_or_app; [left; exact (ms_given _ _ M _ Hg)|right].
                   cbn [mgrants] in Hg. apply in_map_iff in Hg as (g' & Q & Hg). injection Q as <-. assumption.
                ** eapply sh_ret; [exact (ms_hist _ _ M)|exact Nx].
                ** rewrite requested_snoc. simpl. rewrite Nat.add_0_r. exact (ms_bound _ _ M).
          -- injection S as <-. exists (RCfg (rsh r) (Reentrant.put t [] (rrun r)) (rhist r ++ [NPan id t 0 m]) (rgiven r) (answers r)). split.
             ++ apply (rreach_one r (NLStep t)); [split; exact I|]. cbn [rstep]. rewrite St. reflexivity.
             ++ split; cbn [msh mrun mhist mgiven rsh rrun rhist rgiven].
                ** exact (ms_sh _ _ M).
                ** intros u. rewrite stack_put. unfold upd. destruct (Nat.eqb_spec u t) as [->|N]; [reflexivity|]. exact (ms_run _ _ M u).
                ** exact (ms_given _ _ M).
                ** eapply sh_pan; [exact (ms_hist _ _ M)|exact Nx].
                ** rewrite requested_snoc. simpl. rewrite Nat.add_0_r. exact (ms_bound _ _ M).
          -- destruct (exec E (agent t 0) a (msh c w)) as [y s l|f] eqn:Ex; [|discriminate]. injection S as <-.
             exists (rafter t r (Frame id (RPlain o) (lift (Act a k))) [] (lift (k y)) s l). split.
             ++ apply (rreach_one r (NLStep t)); [split; exact I|]. cbn [rstep]. rewrite St. cbn [f_prog lift length]. rewrite (ms_sh _ _ M), Ex. reflexivity.
             ++ apply sim_act; auto. cbn [thread_sim m_op m_prog]. rewrite Op, Nat.eqb_refl. cbn [f_id f_op]. eauto.
          -- destruct (exec E (agent t 0) a (msh c w)) as [y s l|f] eqn:Ex; [|discriminate]. destruct (ag y) eqn:Ag; injection S as <-; [exists r; split; [constructor|assumption]|].
             exists (rafter t r (Frame id (RPlain o) (lift (Spin a ag k))) [] (lift (k y)) s l). split.
             ++ apply (rreach_one r (NLStep t)); [split; exact I|]. cbn [rstep]. rewrite St. cbn [f_prog lift length]. rewrite (ms_sh _ _ M), Ex, Ag. reflexivity.
             ++ apply sim_act; auto. cbn [thread_sim m_op m_prog]. rewrite Op, Nat.eqb_refl. cbn [f_id f_op]. eauto.
        * destruct Rt as (St & p & Pr). assert (Nb := N). apply Nat.eqb_neq in Nb.
          assert (Ends : forall e, (forall h, elsewhere w h e <-> forall t o, nth_error h (m_id x) <> Some (MInv (m_id x) t (MOp w o))) -> masked w e = 0 ->
                  forall gv, (forall g, In (w, g) gv -> In (w, g) (mgiven c)) ->
                  exists r', rreach r r' /\ msim (MCfg (msh c) (upd (mrun c) t None) (mhist c ++ [e]) gv) r').
          { intros e He Hm gv Hgv. exists r. split; [constructor|]. split; cbn [msh mrun mhist mgiven].
            - exact (ms_sh _ _ M).
            - intros u. unfold upd. destruct (Nat.eqb_spec u t) as [->|N']; [assumption|exact (ms_run _ _ M u)].
            - intros g Hg. apply (ms_given _ _ M), Hgv. assumption.
            - apply sh_other; [exact (ms_hist _ _ M)|]. apply He. intros t' o'. rewrite Nx. intros Q. injection Q as _ Q _. contradiction.
            - rewrite requested_snoc, Hm, Nat.add_0_r. exact (ms_bound _ _ M). }
          destruct p as [y|m|a k|a ag k]; cbn [on] in Pr; rewrite Pr in S.
          -- injection S as <-. apply Ends; auto; [intros h; reflexivity|]. cbn [mgrants]. intros g Hg. apply in_app_or in Hg as [Hg|Hg]; [assumption|].
             apply in_map_iff in Hg as (g' & Q & _). injection Q as Q _. contradiction.
          -- injection S as <-. apply Ends; auto. intros h; reflexivity.
          -- destruct (exec E (agent t 0) a (msh c v)) as [y s l|f] eqn:Ex; [|discriminate]. injection S as <-. exists r. split; [constructor|].
             apply sim_other; auto. cbn [thread_sim m_op m_prog]. rewrite Op, Nb. eauto.
          -- destruct (exec E (agent t 0) a (msh c v)) as [y s l|f] eqn:Ex; [|discriminate]. destruct (ag y) eqn:Ag; injection S as <-; [exists r; split; [constructor|assumption]|].
             exists r. split; [constructor|]. apply sim_other; auto. cbn [thread_sim m_op m_prog]. rewrite Op, Nb. eauto.
  Qed.
End Project.
