(** * The program logic: what a program does under arbitrary interference by other threads. *)

From Coq Require Import List Arith Bool Lia Permutation.
From Verif.Model Require Import Prog Mem.
From Verif Require Import Client.
From Verif.Logic Require Import Inv.
Import ListNotations.
Local Arguments Nat.leb : simpl never.
Local Arguments Nat.ltb : simpl never.
Local Arguments Nat.eqb : simpl never.
Local Arguments Nat.add : simpl never.

(** The value visible at a position. *)
Definition cell {V} (s : shared V) (i : nat) : option V :=
  if i <? cap s then
    match sst (slots s i) with NONE => None | _ => sval (slots s i) end
  else None.

Section WP.
  Context {V : Type} (E : env V) (ro : bool).
  Notation Inv := (Inv E ro).
  Notation good := (good E ro).
  Notation prog := (prog V).
  Notation shared := (shared V).
  Implicit Types (s : shared) (g : nat -> gst V) (L : list (tok V)).

  (** What the accesses recorded in the history say about the states before and after. *)
  Definition same_cells (s s' : shared) : Prop := forall i, cell s' i = cell s i.
  Definition quiet (s s' : shared) : Prop := same_cells s s' /\ resv s' = resv s.
  Definition accrel (a : acc V) (s s' : shared) : Prop :=
    match a with
    | AcAdd b n => resv s = b /\ resv s' = b + n /\ same_cells s s'
    | AcInit i v => resv s' = resv s /\ cell s i = None /\ forall j, cell s' j = upd (cell s) i (Some v) j
    | AcRead i v => cell s i = Some v /\ quiet s s'
    | AcWrite i old new =>
        resv s' = resv s /\ cell s i = Some old /\ forall j, cell s' j = upd (cell s) i (Some new) j
    | AcSwap i j v w =>
        resv s' = resv s /\ i <> j /\ cell s i = Some v /\ cell s j = Some w /\
        forall k, cell s' k = upd (upd (cell s) i (Some w)) j (Some v) k
    | AcSt i x => i < cap s /\ sst (slots s i) = x /\ s' = s
    | AcResv n => resv s = n /\ s' = s
    | AcCap n => cap s = n /\ s' = s
    end.
  Definition logrel (l : list (acc V)) (s s' : shared) : Prop :=
    match l with
    | [] => quiet s s'
    | [a] => accrel a s s'
    | _ => False
    end.

  (** The reservation counter does not wrap around at this access. *)
  Definition fits (a : act V) (s : shared) : Prop :=
    match a with AddResv n _ => resv s + n < wmod E | _ => True end.

  Definition step_ok (t : nat) (a : act V) (L : list (tok V)) (s0 : shared)
             (K : res a -> list (tok V) -> list (acc V) -> shared -> Prop) : Prop :=
    forall s g, le s0 s -> Inv s g -> view s g t L -> fits a s ->
    exists x s' l g' L', exec E t a s = Done x s' l /\ Inv s' g' /\ view s' g' t L' /\
                         guar t s g s' g' /\ logrel l s s' /\ K x L' l s'.

  (** Only two kinds of busy-waiting occur; [nl]: the waiting call holds no element. *)
  Definition spinok (nl : bool) (a : act V) (L : list (tok V)) : (res a -> bool) -> Prop :=
    match a return (res a -> bool) -> Prop with
    | CasSt i SOME RESERVED => fun again =>
        (forall r, again r = (negb (fst r) && st_eqb (snd r) RESERVED)%bool) /\ (nl = true -> L = [])
    | LoadCap => fun again =>
        exists b n k L', L = TPend b n k :: L' /\ 0 < n /\ (forall c, again c = (c <? b)) /\
                         (nl = true -> L' = [])
    | _ => fun _ => False
    end.

  Definition spin_step (t : nat) (a : act V) (again : res a -> bool) (L : list (tok V)) (s0 : shared)
             (K : res a -> list (tok V) -> list (acc V) -> shared -> Prop) : Prop :=
    forall s g, le s0 s -> Inv s g -> view s g t L -> fits a s ->
    (exists x l, exec E t a s = Done x s l /\ again x = true) \/
    exists x s' l g' L', exec E t a s = Done x s' l /\ again x = false /\ Inv s' g' /\ view s' g' t L' /\
                         guar t s g s' g' /\ logrel l s s' /\ K x L' l s'.

  Section Wp.
    Context (nl : bool) (t : nat) {R : Type}
            (Q : R -> list (tok V) -> list (acc V) -> shared -> Prop)
            (QP : panic -> list (tok V) -> list (acc V) -> shared -> Prop).

    Fixpoint wp (p : prog R) (L : list (tok V)) (tr : list (acc V)) (s0 : shared) : Prop :=
      match p with
      | Ret r => Q r L tr s0
      | Pan m => QP m L tr s0
      | Act a k => step_ok t a L s0 (fun x L' l s' => wp (k x) L' (tr ++ l) s')
      | Spin a again k =>
          spinok nl a L again /\
          spin_step t a again L s0 (fun x L' l s' => wp (k x) L' (tr ++ l) s')
      end.
  End Wp.

  Lemma step_ok_mono t a L s0 (K K' : res a -> list (tok V) -> list (acc V) -> shared -> Prop) :
    (forall x L' l s', K x L' l s' -> K' x L' l s') -> step_ok t a L s0 K -> step_ok t a L s0 K'.
  Proof.
    intros H S s g H1 H2 H3 H4. destruct (S s g H1 H2 H3 H4) as (x & s' & l & g' & L' & ?).
    exists x, s', l, g', L'. intuition auto.
  Qed.

  Lemma spin_step_mono t a again L s0 (K K' : res a -> list (tok V) -> list (acc V) -> shared -> Prop) :
    (forall x L' l s', K x L' l s' -> K' x L' l s') -> spin_step t a again L s0 K -> spin_step t a again L s0 K'.
  Proof.
    intros H S s g H1 H2 H3 H4. destruct (S s g H1 H2 H3 H4) as [?|(x & s' & l & g' & L' & ?)]; [now left|right].
    exists x, s', l, g', L'. intuition auto.
  Qed.

  Lemma wp_mono nl t {R} (Q Q' : R -> _ -> _ -> _ -> Prop) (QP QP' : panic -> _ -> _ -> _ -> Prop) p :
    (forall r L tr s, Q r L tr s -> Q' r L tr s) ->
    (forall r L tr s, QP r L tr s -> QP' r L tr s) ->
    forall L tr s0, wp nl t Q QP p L tr s0 -> wp nl t Q' QP' p L tr s0.
  Proof.
    intros HQ HP. induction p as [r|m|a k IH|a again k IH]; simpl; intros L tr s0 H; auto.
    - revert H. apply step_ok_mono. intros. now apply IH.
    - destruct H as [H1 H2]. split; [assumption|]. revert H2. apply spin_step_mono. intros. now apply IH.
  Qed.

  Lemma wp_bind nl t {A B} (Q : B -> _ -> _ -> _ -> Prop) QP (p : prog A) (f : A -> prog B) :
    forall L tr s0,
    wp nl t (fun r L' tr' s' => wp nl t Q QP (f r) L' tr' s') QP p L tr s0 ->
    wp nl t Q QP (bind p f) L tr s0.
  Proof.
    induction p as [r|m|a k IH|a again k IH]; simpl; intros L tr s0 H; auto.
    - revert H. apply step_ok_mono. intros. now apply IH.
    - destruct H as [H1 H2]. split; [assumption|]. revert H2. apply spin_step_mono. intros. now apply IH.
  Qed.

  Lemma wp_fmap nl t {A B} (Q : B -> _ -> _ -> _ -> Prop) QP (p : prog A) (f : A -> B) L tr s0 :
    wp nl t (fun r => Q (f r)) QP p L tr s0 ->
    wp nl t Q QP (fmap f p) L tr s0.
  Proof. intros H. apply wp_bind. simpl. exact H. Qed.

  Lemma wp_doo nl t a (Q : res a -> _ -> _ -> _ -> Prop) QP L tr s0 :
    step_ok t a L s0 (fun x L' l s' => Q x L' (tr ++ l) s') ->
    wp nl t Q QP (doo a) L tr s0.
  Proof. intros H. exact H. Qed.

  Lemma wp_chk nl t {A} (Q : A -> _ -> _ -> _ -> Prop) (QP : panic -> _ -> _ -> _ -> Prop) m (x : option A) L tr s0 :
    (forall y, x = Some y -> Q y L tr s0) ->
    (x = None -> QP m L tr s0) ->
    wp nl t Q QP (chk m x) L tr s0.
  Proof. intros H1 H2. destruct x; simpl; auto. Qed.

  Lemma step_ok_perm t a L L' s0 (K : _ -> list (tok V) -> list (acc V) -> shared -> Prop) : Permutation L L' -> step_ok t a L' s0 K -> step_ok t a L s0 K.
  Proof. intros P H s g H1 H2 H3. apply H; auto. eapply view_perm; eauto. Qed.

  (** ** Rules *)
  Lemma inv_good s g : Inv s g -> good s.
  Proof. intros H. now exists g. Qed.

  Lemma guar_refl t (s : shared) g : guar t s g s g.
  Proof. constructor; try tauto; auto using le_refl. Qed.
  Lemma quiet_refl (s : shared) : quiet s s.
  Proof. split; [intros i|]; reflexivity. Qed.

  (** accesses that do not change the state *)
  Lemma st_pure t a L s0 (K : _ -> list (tok V) -> list (acc V) -> shared -> Prop) :
    (forall s g, le s0 s -> Inv s g -> view s g t L ->
       exists x l, exec E t a s = Done x s l /\ logrel l s s /\ (good s -> K x L l s)) ->
    step_ok t a L s0 K.
  Proof.
    intros H s g H1 H2 H3 _. destruct (H s g H1 H2 H3) as (x & l & H4 & H5 & H6).
    exists x, s, l, g, L. repeat (split; [assumption || apply guar_refl|]).
    apply H6. eapply inv_good; eauto.
  Qed.

  Lemma st_LoadResv t o L s0 (K : _ -> list (tok V) -> list (acc V) -> shared -> Prop) :
    (forall s, le s0 s -> good s -> K (resv s) L [AcResv (resv s)] s) -> step_ok t (LoadResv o) L s0 K.
  Proof.
    intros H. apply st_pure. intros s g H1 H2 H3. do 2 eexists. split; [reflexivity|].
    split; [simpl; auto|]. intros. now apply H.
  Qed.
  Lemma st_LoadWrtn t o L s0 (K : _ -> list (tok V) -> list (acc V) -> shared -> Prop) :
    (forall s, le s0 s -> good s -> K (wrtn s) L [] s) -> step_ok t (LoadWrtn o) L s0 K.
  Proof.
    intros H. apply st_pure. intros s g H1 H2 H3. do 2 eexists. split; [reflexivity|].
    split; [apply quiet_refl|]. intros. now apply H.
  Qed.
  Lemma st_LoadCap t L s0 (K : _ -> list (tok V) -> list (acc V) -> shared -> Prop) :
    (forall s, le s0 s -> good s -> K (cap s) L [AcCap (cap s)] s) -> step_ok t LoadCap L s0 K.
  Proof.
    intros H. apply st_pure. intros s g H1 H2 H3. do 2 eexists. split; [reflexivity|].
    split; [simpl; auto|]. intros. now apply H.
  Qed.
  Lemma st_LoadMax t L s0 (K : _ -> list (tok V) -> list (acc V) -> shared -> Prop) :
    (forall s, le s0 s -> good s -> K (maxc s) L [] s) -> step_ok t LoadMax L s0 K.
  Proof.
    intros H. apply st_pure. intros s g H1 H2 H3. do 2 eexists. split; [reflexivity|].
    split; [apply quiet_refl|]. intros. now apply H.
  Qed.
  Lemma st_IterRange t a b L s0 (K : _ -> list (tok V) -> list (acc V) -> shared -> Prop) :
    a <= b -> b <= cap s0 ->
    (forall s, le s0 s -> good s -> K tt L [] s) -> step_ok t (IterRange a b) L s0 K.
  Proof.
    intros Ha Hb H. apply st_pure. intros s g H1 H2 H3. exists tt, []. split.
    - simpl. pose proof (le_cap _ _ H1).
      destruct (Nat.leb_spec a b), (Nat.leb_spec b (cap s)); simpl; try lia; reflexivity.
    - split; [apply quiet_refl|]. intros. now apply H.
  Qed.
  Lemma with_slot_lt {A} (s : shared) i (k : slot V -> outcome V A) :
    i < cap s -> with_slot s i k = k (slots s i).
  Proof. intros H. unfold with_slot. now apply Nat.ltb_lt in H; rewrite H. Qed.

  Lemma st_LoadSt t i o L s0 (K : _ -> list (tok V) -> list (acc V) -> shared -> Prop) :
    i < cap s0 ->
    (forall s, le s0 s -> good s -> K (sst (slots s i)) L [AcSt i (sst (slots s i))] s) ->
    step_ok t (LoadSt i o) L s0 K.
  Proof.
    intros Hi H. apply st_pure. intros s g H1 H2 H3.
    assert (i < cap s) by (pose proof (le_cap _ _ H1); lia).
    do 2 eexists. split; [simpl; now rewrite with_slot_lt|].
    split; [simpl; auto|]. intros. now apply H.
  Qed.

  (** *** accesses that change one slot *)
  Lemma slot_ok_set_other s i j y x : j <> i -> slot_ok ro s j x -> slot_ok ro (set_slot s i y) j x.
  Proof.
    intros N. unfold slot_ok, set_slot; simpl. rewrite !upd_other by assumption. auto.
  Qed.

  Lemma view_head_in s g t k L : view s g t (k :: L) -> forall i x, tokg t k i = Some x -> g i = x.
  Proof. intros W i x. eapply view_head; eauto. Qed.

  (** [st_slot]: the slot of position [i] becomes [y], its ghost status [z]. *)
  Lemma st_slot t a L s0 (K : res a -> list (tok V) -> list (acc V) -> shared -> Prop) i :
    (forall s g, le s0 s -> Inv s g -> view s g t L ->
       exists x y l z L',
         exec E t a s = Done x (set_slot s i y) l /\
         i < cap s /\
         g i <> GFree /\ z <> GFree /\ g i <> GDead /\ z <> GDead /\
         (full (g i) -> full z) /\
         (filledp s i -> filledp (set_slot s i y) i) /\
         slot_ok ro (set_slot s i y) i z /\
         (forall u, u <> t -> own u z = own u (g i)) /\
         (forall j, lk t L' j = if j =? i then own t z else lk t L j) /\
         disj t L' /\
         Forall (kview s t) L' /\
         (Exists is_grow L -> Exists is_grow L') /\
         logrel l s (set_slot s i y) /\
         (good (set_slot s i y) -> le s0 (set_slot s i y) -> K x L' l (set_slot s i y))) ->
    step_ok t a L s0 K.
  Proof.
    intros H s g H1 H2 H3 _.
    destruct (H s g H1 H2 H3) as (x & y & l & z & L' & Hx & Hi & F1 & F2 & D1 & D2 & HF & HFi & HS & HO & HL & HD & HK & HE & HLog & HKK).
    assert (I' : Inv (set_slot s i y) (upd g i z)).
    { destruct H2 as [I1 I2 I3 I4 I5 I6]. constructor; try assumption.
      - intros j. destruct (Nat.eq_dec j i) as [->|N].
        + now rewrite upd_same.
        + rewrite upd_other by assumption. apply slot_ok_set_other; auto.
      - intros j. destruct (Nat.eq_dec j i) as [->|N].
        + rewrite upd_same. specialize (I4 i). simpl. tauto.
        + rewrite upd_other by assumption. apply I4.
      - intros j Hj. destruct (Nat.eq_dec j i) as [->|N].
        + rewrite upd_same. auto.
        + rewrite upd_other by assumption. auto.
      - intros u Hu. simpl in *. rewrite upd_other by lia. auto. }
    assert (LE : le s (set_slot s i y)).
    { constructor; auto. intros j Fj. destruct (Nat.eq_dec j i) as [->|N]; [auto|].
      unfold filledp, set_slot in *; simpl. now rewrite upd_other. }
    exists x, (set_slot s i y), l, (upd g i z), L'.
    split; [assumption|]. split; [assumption|]. split; [|split; [|split; [assumption|]]].
    - destruct H3 as [O D Kk W]. constructor.
      + intros j. rewrite HL. destruct (Nat.eqb_spec j i) as [->|N].
        * now rewrite upd_same.
        * rewrite upd_other by assumption. apply O.
      + assumption.
      + exact HK.
      + intros G. apply HE, W. exact G.
    - constructor; auto.
      + intros u j N. destruct (Nat.eq_dec j i) as [->|N'].
        * rewrite upd_same. auto.
        * now rewrite upd_other.
      + intros j. destruct (Nat.eq_dec j i) as [->|N'].
        * rewrite upd_same. tauto.
        * now rewrite upd_other.
      + intros. simpl. tauto.
    - apply HKK; [eapply inv_good; eauto|eapply le_trans; eauto].
  Qed.

  (** token replacement at the head: both tokens are about position [i] only *)
  Definition single (k : tok V) (i : nat) : Prop :=
    match k with TInit j | TIniD j _ | TLock j _ => j = i | _ => False end.
  Definition tokst (t : nat) (k : tok V) : gst V :=
    match k with
    | TPend _ _ _ => GFree
    | TInit _ => GInit t
    | TIniD _ v => GIniD t v
    | TLock _ m => GLock t m
    end.

  Lemma tokg_single t k i j : single k i -> tokg t k j = if j =? i then Some (tokst t k) else None.
  Proof. destruct k; simpl; [tauto| | |]; intros ->; reflexivity. Qed.
  Lemma owner_tokst t k i : single k i -> owner (tokst t k) = Some t.
  Proof. destruct k; simpl; tauto. Qed.
  Lemma own_self t (x : gst V) : owner x = Some t -> own t x = Some x.
  Proof. intros H. apply own_some. auto. Qed.

  Lemma replace_head t k k' i (L : list (tok V)) s g :
    single k i -> single k' i -> view s g t (k :: L) ->
    (forall j, lk t (k' :: L) j = if j =? i then own t (tokst t k') else lk t (k :: L) j) /\
    disj t (k' :: L) /\ Forall (kview s t) (k' :: L) /\ (Exists is_grow (k :: L) -> Exists is_grow (k' :: L)).
  Proof.
    intros S S' [O D Kk W]. split; [|split; [|split]].
    - intros j. simpl. rewrite (tokg_single t k' i j S'), (tokg_single t k i j S).
      destruct (Nat.eqb_spec j i); [|reflexivity].
      now rewrite own_self by (eapply owner_tokst; eauto).
    - destruct D as [D1 D2]. split; [|assumption].
      intros j. specialize (D1 j). rewrite (tokg_single t k' i j S'). rewrite (tokg_single t k i j S) in D1.
      destruct (j =? i); [|congruence]. intros _. apply D1. discriminate.
    - inversion Kk; subst. constructor; [|assumption]. destruct k'; simpl; auto. destruct S'.
    - intros X. inversion X as [? ? Y|]; subst; [|now constructor 2].
      destruct k; simpl in *; try tauto.
  Qed.

  Lemma drop_head t k i (L : list (tok V)) s g z :
    single k i -> owner z = None -> view s g t (k :: L) ->
    (forall j, lk t L j = if j =? i then own t z else lk t (k :: L) j) /\
    disj t L /\ Forall (kview s t) L /\ (Exists is_grow (k :: L) -> Exists is_grow L).
  Proof.
    intros S N [O D Kk W]. destruct D as [D1 D2]. split; [|split; [|split]].
    - intros j. simpl. rewrite (tokg_single t k i j S).
      destruct (Nat.eqb_spec j i) as [->|]; [|reflexivity].
      assert (X : own t z = None) by (apply own_none; congruence). rewrite X.
      apply D1. rewrite (tokg_single t k i i S), Nat.eqb_refl. discriminate.
    - assumption.
    - now inversion Kk.
    - intros X. inversion X as [? ? Y|]; subst; [|assumption].
      destruct k; simpl in *; tauto.
  Qed.

  Lemma add_head t k i (L : list (tok V)) s g :
    single k i -> own t (g i) = None -> view s g t L ->
    (forall j, lk t (k :: L) j = if j =? i then own t (tokst t k) else lk t L j) /\
    disj t (k :: L) /\ Forall (kview s t) (k :: L) /\ (Exists is_grow L -> Exists is_grow (k :: L)).
  Proof.
    intros S N [O D Kk W]. split; [|split; [|split]].
    - intros j. simpl. rewrite (tokg_single t k i j S).
      destruct (Nat.eqb_spec j i); [|reflexivity]. now rewrite own_self by (eapply owner_tokst; eauto).
    - split; [|assumption]. intros j. rewrite (tokg_single t k i j S).
      destruct (Nat.eqb_spec j i) as [->|]; [|congruence]. intros _. rewrite <- O. exact N.
    - constructor; [|assumption]. destruct k; simpl in *; tauto.
    - intros. now constructor 2.
  Qed.

  Lemma cell_set_other (s : shared) i j y : j <> i -> cell (set_slot s i y) j = cell s j.
  Proof. intros N. unfold cell, set_slot; simpl. now rewrite upd_other. Qed.
  Lemma cell_set_same (s : shared) i y : i < cap s ->
    cell (set_slot s i y) i = match sst y with NONE => None | _ => sval y end.
  Proof. intros N. unfold cell, set_slot; simpl. rewrite upd_same. apply Nat.ltb_lt in N. now rewrite N. Qed.
  Lemma cell_lt (s : shared) i : i < cap s ->
    cell s i = match sst (slots s i) with NONE => None | _ => sval (slots s i) end.
  Proof. intros N. unfold cell. apply Nat.ltb_lt in N. now rewrite N. Qed.

  Lemma quiet_set (s : shared) i y : i < cap s ->
    match sst y with NONE => None | _ => sval y end = cell s i -> quiet s (set_slot s i y).
  Proof.
    intros H1 H2. split; [|reflexivity]. intros j. destruct (Nat.eq_dec j i) as [->|N].
    - now rewrite cell_set_same.
    - now apply cell_set_other.
  Qed.

  Lemma full_not_free x : full (V:=V) x -> x <> GFree /\ x <> GDead.
  Proof. destruct x; simpl; try tauto; split; discriminate. Qed.

  (** initialisation of a reserved position *)
  Lemma st_InitBeg t i n L s0 (K : _ -> list (tok V) -> list (acc V) -> shared -> Prop) :
    i < cap s0 ->
    (forall s, le s0 s -> good s -> K tt (TInit i :: TPend (S i) n KNo :: L) [] s) ->
    step_ok t (InitBeg i) (TPend i (S n) KNo :: L) s0 K.
  Proof.
    intros Hi H. apply st_slot with (i := i). intros s g H1 H2 H3.
    assert (Hc : i < cap s) by (pose proof (le_cap _ _ H1); lia).
    assert (G : g i = GPend t).
    { eapply view_head; eauto. simpl. destruct (Nat.leb_spec i i), (Nat.ltb_spec i (i + S n)); simpl; try lia; reflexivity. }
    pose proof (i_slot _ _ _ _ H2 i) as S0. rewrite G in S0. specialize (S0 Hc).
    exists tt, (Slot NONE None (Some t) []), [], (GInit t), (TInit i :: TPend (S i) n KNo :: L).
    assert (X : exec E t (InitBeg i) s = Done tt (set_slot s i (Slot NONE None (Some t) [])) []).
    { simpl. rewrite with_slot_lt by assumption. rewrite S0. reflexivity. }
    split; [exact X|]. split; [assumption|]. rewrite G.
    destruct H3 as [O D Kk W]. destruct D as [D1 D2].
    repeat (split; [discriminate|]). split; [simpl; tauto|].
    split. { intros [_ Y]. rewrite S0 in Y. now destruct Y. }
    split. { simpl. rewrite upd_same. simpl. auto. }
    split. { intros u N. assert (A : own u (GInit t : gst V) = None) by (apply own_none; simpl; congruence).
             assert (B : own u (GPend t : gst V) = None) by (apply own_none; simpl; congruence). now rewrite A, B. }
    split. { intros j. simpl. rewrite (own_self t (GInit t)) by reflexivity.
             destruct (Nat.eqb_spec j i); [reflexivity|].
             destruct (Nat.leb_spec (S i) j), (Nat.ltb_spec j (S i + n)), (Nat.leb_spec i j), (Nat.ltb_spec j (i + S n));
               simpl in *; try lia; reflexivity. }
    split. { split.
             - intros j. simpl. destruct (Nat.eqb_spec j i) as [->|]; [|congruence]. intros _.
               destruct (Nat.leb_spec (S i) i); simpl; [lia|]. apply D1. simpl.
               destruct (Nat.leb_spec i i), (Nat.ltb_spec i (i + S n)); simpl; try lia; discriminate.
             - split; [|assumption]. intros j Hj. apply D1. simpl in *.
               destruct (Nat.leb_spec (S i) j), (Nat.ltb_spec j (S i + n)), (Nat.leb_spec i j), (Nat.ltb_spec j (i + S n));
                 simpl in *; try lia; congruence. }
    split. { inversion Kk; subst. repeat constructor. assumption. }
    split. { intros Y. inversion Y as [? ? Z|]; subst; [destruct Z|]. now do 2 constructor 2. }
    split. { apply quiet_set; [assumption|]. rewrite cell_lt, S0 by assumption. reflexivity. }
    intros. now apply H.
  Qed.

  Lemma st_InitEnd t i v L s0 (K : _ -> list (tok V) -> list (acc V) -> shared -> Prop) :
    i < cap s0 ->
    (forall s, le s0 s -> good s -> K tt (TIniD i v :: L) [] s) ->
    step_ok t (InitEnd i v) (TInit i :: L) s0 K.
  Proof.
    intros Hi H. apply st_slot with (i := i). intros s g H1 H2 H3.
    assert (Hc : i < cap s) by (pose proof (le_cap _ _ H1); lia).
    assert (G : g i = GInit t).
    { eapply view_head; eauto. simpl. now rewrite Nat.eqb_refl. }
    pose proof (i_slot _ _ _ _ H2 i) as S0. rewrite G in S0. destruct S0 as (_ & S1 & S2 & S3).
    destruct (replace_head t (TInit i) (TIniD i v) i L s g eq_refl eq_refl H3) as (R1 & R2 & R3 & R4).
    exists tt, (Slot NONE (Some v) None []), [], (GIniD t v), (TIniD i v :: L).
    split. { simpl. rewrite with_slot_lt by assumption. rewrite S2, S3. simpl. rewrite Nat.eqb_refl. simpl. now rewrite S1. }
    split; [assumption|]. rewrite G.
    repeat (split; [discriminate|]). split; [simpl; tauto|].
    split. { intros [_ Y]. now destruct Y. }
    split. { simpl. rewrite upd_same. simpl. auto. }
    split. { intros u N. assert (A : own u (GInit t : gst V) = None) by (apply own_none; simpl; congruence).
             assert (B : own u (GIniD t v) = None) by (apply own_none; simpl; congruence). now rewrite A, B. }
    split; [exact R1|]. split; [exact R2|]. split; [exact R3|]. split; [exact R4|].
    split. { apply quiet_set; [assumption|]. rewrite cell_lt, S1 by assumption. reflexivity. }
    intros. now apply H.
  Qed.

  Lemma st_Publish t i v L s0 (K : _ -> list (tok V) -> list (acc V) -> shared -> Prop) :
    i < cap s0 ->
    (forall s, le s0 s -> good s -> filledp s i -> K tt L [AcInit i v] s) ->
    step_ok t (StoreSt i SOME) (TIniD i v :: L) s0 K.
  Proof.
    intros Hi H. apply st_slot with (i := i). intros s g H1 H2 H3.
    assert (Hc : i < cap s) by (pose proof (le_cap _ _ H1); lia).
    assert (G : g i = GIniD t v).
    { eapply view_head; eauto. simpl. now rewrite Nat.eqb_refl. }
    pose proof (i_slot _ _ _ _ H2 i) as S0. rewrite G in S0. destruct S0 as (_ & S1).
    destruct (drop_head t (TIniD i v) i L s g GFull eq_refl eq_refl H3) as (R1 & R2 & R3 & R4).
    exists tt, (Slot SOME (Some v) None []), [AcInit i v], GFull, L.
    split. { simpl. rewrite with_slot_lt by assumption. now rewrite S1. }
    split; [assumption|]. rewrite G.
    repeat (split; [discriminate|]). split; [simpl; tauto|].
    assert (FF : filledp (set_slot s i (Slot SOME (Some v) None [])) i).
    { split; [assumption|]. simpl. rewrite upd_same. discriminate. }
    split; [auto|].
    split. { simpl. rewrite upd_same. simpl. repeat (split; [assumption || reflexivity || discriminate|]). right; reflexivity. }
    split. { intros u N. assert (B : own u (GIniD t v) = None) by (apply own_none; simpl; congruence). rewrite B. reflexivity. }
    split; [exact R1|]. split; [exact R2|]. split; [exact R3|]. split; [exact R4|].
    split. { simpl. split; [reflexivity|]. rewrite cell_lt, S1 by assumption. split; [reflexivity|].
             intros j. destruct (Nat.eq_dec j i) as [->|N].
             - rewrite cell_set_same, upd_same by assumption. reflexivity.
             - now rewrite cell_set_other, upd_other. }
    intros. apply H; auto.
  Qed.

  (** releasing a lock *)
  Lemma st_Unlock t i L s0 (K : _ -> list (tok V) -> list (acc V) -> shared -> Prop) :
    (forall s, le s0 s -> good s -> filledp s i -> K tt L [] s) ->
    step_ok t (StoreSt i SOME) (TLock i LHeld :: L) s0 K.
  Proof.
    intros H. apply st_slot with (i := i). intros s g H1 H2 H3.
    assert (G : g i = GLock t LHeld).
    { eapply view_head; eauto. simpl. now rewrite Nat.eqb_refl. }
    pose proof (i_slot _ _ _ _ H2 i) as S0. rewrite G in S0. destruct S0 as (Hc & S1 & S2 & S3 & S4).
    destruct (drop_head t (TLock i LHeld) i L s g GFull eq_refl eq_refl H3) as (R1 & R2 & R3 & R4).
    exists tt, (Slot SOME (sval (slots s i)) (swr (slots s i)) (srd (slots s i))), [], GFull, L.
    split. { simpl. rewrite with_slot_lt by assumption. rewrite S1. reflexivity. }
    split; [assumption|]. rewrite G.
    repeat (split; [discriminate|]). split; [simpl; tauto|].
    assert (FF : filledp (set_slot s i (Slot SOME (sval (slots s i)) (swr (slots s i)) (srd (slots s i)))) i).
    { split; [assumption|]. simpl. rewrite upd_same. discriminate. }
    split; [auto|].
    split. { simpl. rewrite upd_same. simpl. repeat (split; [assumption || reflexivity || discriminate|]). exact S4. }
    split. { intros u N. assert (B : own u (GLock t LHeld : gst V) = None) by (apply own_none; simpl; congruence). rewrite B. reflexivity. }
    split; [exact R1|]. split; [exact R2|]. split; [exact R3|]. split; [exact R4|].
    split. { apply quiet_set; [assumption|]. rewrite cell_lt, S1 by assumption. reflexivity. }
    intros. apply H; auto.
  Qed.

  (** reading under the lock *)
  Lemma st_RdBeg t i L s0 (K : _ -> list (tok V) -> list (acc V) -> shared -> Prop) :
    (forall s, le s0 s -> good s -> K tt (TLock i LRd :: L) [] s) ->
    step_ok t (RdBeg i) (TLock i LHeld :: L) s0 K.
  Proof.
    intros H. apply st_slot with (i := i). intros s g H1 H2 H3.
    assert (G : g i = GLock t LHeld).
    { eapply view_head; eauto. simpl. now rewrite Nat.eqb_refl. }
    pose proof (i_slot _ _ _ _ H2 i) as S0. rewrite G in S0. destruct S0 as (Hc & S1 & S2 & S3 & S4).
    destruct (replace_head t (TLock i LHeld) (TLock i LRd) i L s g eq_refl eq_refl H3) as (R1 & R2 & R3 & R4).
    exists tt, (Slot (sst (slots s i)) (sval (slots s i)) (swr (slots s i)) (t :: srd (slots s i))), [], (GLock t LRd), (TLock i LRd :: L).
    split. { simpl. rewrite with_slot_lt by assumption. rewrite S3. reflexivity. }
    split; [assumption|]. rewrite G.
    repeat (split; [discriminate|]). split; [simpl; tauto|].
    split. { intros _. split; [assumption|]. simpl. rewrite upd_same. simpl. rewrite S1. discriminate. }
    split. { simpl. rewrite upd_same. simpl. repeat (split; [assumption || reflexivity || discriminate|]).
             destruct S4 as [S4|S4]; [now left|right]. simpl. now rewrite S4. }
    split. { intros u N. unfold own. simpl. apply not_eq_sym, Nat.eqb_neq in N. now rewrite N. }
    split; [exact R1|]. split; [exact R2|]. split; [exact R3|]. split; [exact R4|].
    split. { apply quiet_set; [assumption|]. rewrite cell_lt, S1 by assumption. reflexivity. }
    intros. apply H; auto.
  Qed.

  Lemma st_RdEnd t i L s0 (K : _ -> list (tok V) -> list (acc V) -> shared -> Prop) :
    (forall v s, le s0 s -> good s -> K v (TLock i LHeld :: L) [AcRead i v] s) ->
    step_ok t (RdEnd i) (TLock i LRd :: L) s0 K.
  Proof.
    intros H. apply st_slot with (i := i). intros s g H1 H2 H3.
    assert (G : g i = GLock t LRd).
    { eapply view_head; eauto. simpl. now rewrite Nat.eqb_refl. }
    pose proof (i_slot _ _ _ _ H2 i) as S0. rewrite G in S0. destruct S0 as (Hc & S1 & S2 & S3 & S4).
    destruct (sval (slots s i)) as [v|] eqn:Sv; [|congruence].
    destruct (replace_head t (TLock i LRd) (TLock i LHeld) i L s g eq_refl eq_refl H3) as (R1 & R2 & R3 & R4).
    exists v, (Slot (sst (slots s i)) (sval (slots s i)) (swr (slots s i)) (remove1 t (srd (slots s i)))), [AcRead i v], (GLock t LHeld), (TLock i LHeld :: L).
    split. { simpl. rewrite with_slot_lt by assumption. rewrite Sv, S3. reflexivity. }
    split; [assumption|]. rewrite G.
    repeat (split; [discriminate|]). split; [simpl; tauto|].
    split. { intros _. split; [assumption|]. simpl. rewrite upd_same. simpl. rewrite S1. discriminate. }
    split. { simpl. rewrite upd_same. simpl. rewrite Sv. repeat (split; [assumption || reflexivity || discriminate|]).
             destruct S4 as [S4|S4]; [now left|right]. simpl. rewrite S4. simpl. now rewrite Nat.eqb_refl. }
    split. { intros u N. unfold own. simpl. apply not_eq_sym, Nat.eqb_neq in N. now rewrite N. }
    split; [exact R1|]. split; [exact R2|]. split; [exact R3|]. split; [exact R4|].
    split. { simpl. split; [rewrite cell_lt, S1 by assumption; exact Sv|].
             apply quiet_set; [assumption|]. rewrite cell_lt, S1 by assumption. reflexivity. }
    intros. apply H; auto.
  Qed.

  (** reading without the lock, allowed when nobody writes *)
  Lemma st_slot_pure t a L s0 (K : res a -> list (tok V) -> list (acc V) -> shared -> Prop) i :
    ro = true ->
    (forall s g, le s0 s -> Inv s g -> view s g t L ->
       exists x y l,
         exec E t a s = Done x (set_slot s i y) l /\ full (g i) /\
         sst y = sst (slots s i) /\ sval y = sval (slots s i) /\ swr y = None /\
         logrel l s (set_slot s i y) /\
         (good (set_slot s i y) -> le s0 (set_slot s i y) -> K x L l (set_slot s i y))) ->
    step_ok t a L s0 K.
  Proof.
    intros Hro H. apply st_slot with (i := i). intros s g H1 H2 H3.
    destruct (H s g H1 H2 H3) as (x & y & l & Hx & Hf & Y1 & Y2 & Y3 & HL & HK).
    exists x, y, l, (g i), L. split; [assumption|].
    pose proof (proj1 (full_filled E ro _ _ _ H2) Hf) as [Hc Hn].
    split; [assumption|]. destruct (full_not_free _ Hf) as [F1 F2].
    repeat (split; [assumption|]). split; [tauto|].
    split. { intros _. split; [assumption|]. simpl. rewrite upd_same. congruence. }
    pose proof (i_slot _ _ _ _ H2 i) as S0.
    split.
    { destruct (g i) as [| | | | | |u [| |]]; simpl in *; try tauto; rewrite upd_same;
        rewrite Y1, Y2, Y3; intuition (try congruence); left; assumption. }
    split; [reflexivity|].
    split. { intros j. destruct (Nat.eqb_spec j i) as [->|]; [|reflexivity].
             symmetry. apply (v_own _ _ _ _ H3). }
    split; [apply H3|]. split; [apply H3|]. split; [tauto|]. split; [assumption|]. assumption.
  Qed.

  Lemma st_RdBeg_ro t i L s0 (K : _ -> list (tok V) -> list (acc V) -> shared -> Prop) :
    ro = true -> filledp s0 i ->
    (forall s, le s0 s -> good s -> K tt L [] s) ->
    step_ok t (RdBeg i) L s0 K.
  Proof.
    intros Hro Hf H. apply st_slot_pure with (i := i); [assumption|]. intros s g H1 H2 H3.
    pose proof (le_fill _ _ H1 _ Hf) as Fs. pose proof (proj2 (full_filled E ro _ _ _ H2) Fs) as Fg.
    assert (Sw : swr (slots s i) = None).
    { pose proof (i_slot _ _ _ _ H2 i) as S0. destruct (g i) as [| | | | | |u [| |]]; simpl in *; try tauto.
      destruct S0 as (_ & _ & _ & _ & _ & S0). congruence. }
    exists tt, (Slot (sst (slots s i)) (sval (slots s i)) (swr (slots s i)) (t :: srd (slots s i))), [].
    split. { simpl. rewrite with_slot_lt by apply Fs. rewrite Sw. reflexivity. }
    split; [assumption|]. repeat (split; [reflexivity || assumption|]).
    split. { apply quiet_set; [apply Fs|]. now rewrite cell_lt by apply Fs. }
    intros. apply H; auto.
  Qed.

  Lemma st_RdEnd_ro t i L s0 (K : _ -> list (tok V) -> list (acc V) -> shared -> Prop) :
    ro = true -> filledp s0 i ->
    (forall v s, le s0 s -> good s -> K v L [AcRead i v] s) ->
    step_ok t (RdEnd i) L s0 K.
  Proof.
    intros Hro Hf H. apply st_slot_pure with (i := i); [assumption|]. intros s g H1 H2 H3.
    pose proof (le_fill _ _ H1 _ Hf) as Fs. pose proof (proj2 (full_filled E ro _ _ _ H2) Fs) as Fg.
    assert (Sw : swr (slots s i) = None /\ sval (slots s i) <> None).
    { pose proof (i_slot _ _ _ _ H2 i) as S0. destruct (g i) as [| | | | | |u [| |]]; simpl in *; try tauto.
      destruct S0 as (_ & _ & _ & _ & _ & S0). congruence. }
    destruct Sw as [Sw Sn]. destruct (sval (slots s i)) as [v|] eqn:Sv; [|congruence].
    exists v, (Slot (sst (slots s i)) (sval (slots s i)) (swr (slots s i)) (remove1 t (srd (slots s i)))), [AcRead i v].
    split. { simpl. rewrite with_slot_lt by apply Fs. rewrite Sv, Sw. reflexivity. }
    split; [assumption|]. split; [reflexivity|]. split; [assumption|]. split; [assumption|].
    assert (C : cell s i = Some v).
    { rewrite cell_lt by apply Fs. destruct Fs as [_ Fs]. destruct (sst (slots s i)); congruence. }
    split. { simpl. split; [exact C|]. apply quiet_set; [apply Fs|]. simpl. now rewrite cell_lt by apply Fs. }
    intros. apply H; auto.
  Qed.

  (** writing under the lock *)
  Lemma st_WrBeg t i L s0 (K : _ -> list (tok V) -> list (acc V) -> shared -> Prop) :
    ro = false ->
    (forall s, le s0 s -> good s -> K tt (TLock i LWr :: L) [] s) ->
    step_ok t (WrBeg i) (TLock i LHeld :: L) s0 K.
  Proof.
    intros Hro H. apply st_slot with (i := i). intros s g H1 H2 H3.
    assert (G : g i = GLock t LHeld).
    { eapply view_head; eauto. simpl. now rewrite Nat.eqb_refl. }
    pose proof (i_slot _ _ _ _ H2 i) as S0. rewrite G in S0. destruct S0 as (Hc & S1 & S2 & S3 & S4).
    destruct S4 as [S4|S4]; [congruence|].
    destruct (replace_head t (TLock i LHeld) (TLock i LWr) i L s g eq_refl eq_refl H3) as (R1 & R2 & R3 & R4).
    exists tt, (Slot (sst (slots s i)) (sval (slots s i)) (Some t) (srd (slots s i))), [], (GLock t LWr), (TLock i LWr :: L).
    split. { simpl. rewrite with_slot_lt by assumption. rewrite S3, S4. reflexivity. }
    split; [assumption|]. rewrite G.
    repeat (split; [discriminate|]). split; [simpl; tauto|].
    split. { intros _. split; [assumption|]. simpl. rewrite upd_same. simpl. rewrite S1. discriminate. }
    split. { simpl. rewrite upd_same. simpl. repeat (split; [assumption || reflexivity || discriminate|]). assumption. }
    split. { intros u N. unfold own. simpl. apply not_eq_sym, Nat.eqb_neq in N. now rewrite N. }
    split; [exact R1|]. split; [exact R2|]. split; [exact R3|]. split; [exact R4|].
    split. { apply quiet_set; [assumption|]. rewrite cell_lt, S1 by assumption. reflexivity. }
    intros. apply H; auto.
  Qed.

  Lemma st_WrEnd t i f L s0 (K : _ -> list (tok V) -> list (acc V) -> shared -> Prop) :
    (forall v s, le s0 s -> good s -> K v (TLock i LHeld :: L) [AcWrite i v (f v)] s) ->
    step_ok t (WrEnd i f) (TLock i LWr :: L) s0 K.
  Proof.
    intros H. apply st_slot with (i := i). intros s g H1 H2 H3.
    assert (G : g i = GLock t LWr).
    { eapply view_head; eauto. simpl. now rewrite Nat.eqb_refl. }
    pose proof (i_slot _ _ _ _ H2 i) as S0. rewrite G in S0. destruct S0 as (Hc & S1 & S2 & S3 & S4 & S5).
    destruct (sval (slots s i)) as [v|] eqn:Sv; [|congruence].
    destruct (replace_head t (TLock i LWr) (TLock i LHeld) i L s g eq_refl eq_refl H3) as (R1 & R2 & R3 & R4).
    exists v, (Slot (sst (slots s i)) (Some (f v)) None (srd (slots s i))), [AcWrite i v (f v)], (GLock t LHeld), (TLock i LHeld :: L).
    split. { simpl. rewrite with_slot_lt by assumption. rewrite S3, S4, Sv. simpl. rewrite Nat.eqb_refl. reflexivity. }
    split; [assumption|]. rewrite G.
    repeat (split; [discriminate|]). split; [simpl; tauto|].
    split. { intros _. split; [assumption|]. simpl. rewrite upd_same. simpl. rewrite S1. discriminate. }
    split. { simpl. rewrite upd_same. simpl. repeat (split; [assumption || reflexivity || discriminate|]). now right. }
    split. { intros u N. unfold own. simpl. apply not_eq_sym, Nat.eqb_neq in N. now rewrite N. }
    split; [exact R1|]. split; [exact R2|]. split; [exact R3|]. split; [exact R4|].
    split. { simpl. split; [reflexivity|]. split; [rewrite cell_lt, S1 by assumption; exact Sv|].
             intros j. destruct (Nat.eq_dec j i) as [->|N].
             - rewrite cell_set_same, upd_same by assumption. simpl. now rewrite S1.
             - now rewrite cell_set_other, upd_other. }
    intros. apply H; auto.
  Qed.

  (** *** acquiring a lock *)
  Definition lock_slot (x : slot V) : slot V := Slot RESERVED (sval x) (swr x) (srd x).

  Lemma cas_cases t i s g L :
    i < cap s -> Inv s g -> view s g t L ->
    (g i = GFull /\ exec E t (CasSt i SOME RESERVED) s = Done (true, SOME) (set_slot s i (lock_slot (slots s i))) []) \/
    (~ full (g i) /\ exec E t (CasSt i SOME RESERVED) s = Done (false, NONE) s [AcSt i NONE] /\ sst (slots s i) = NONE) \/
    (exists u m, g i = GLock u m /\ exec E t (CasSt i SOME RESERVED) s = Done (false, RESERVED) s [AcSt i RESERVED] /\ sst (slots s i) = RESERVED).
  Proof.
    intros Hc I W. pose proof (i_slot _ _ _ _ I i) as S0. simpl. rewrite with_slot_lt by assumption.
    destruct (g i) eqn:G; simpl in *.
    - right; left. rewrite (S0 Hc). simpl. auto.
    - right; left. rewrite (S0 Hc). simpl. auto.
    - right; left. destruct S0 as (_ & S1 & _). rewrite S1. simpl. auto.
    - right; left. destruct S0 as (_ & S1). rewrite S1. simpl. auto.
    - right; left. rewrite (S0 Hc). simpl. auto.
    - left. destruct S0 as (_ & S1 & _). rewrite S1. simpl. auto.
    - right; right. exists t0, m. split; [reflexivity|].
      assert (S1 : sst (slots s i) = RESERVED) by (destruct m; tauto). rewrite S1. simpl. auto.
  Qed.

  Lemma inv_set s g i y z :
    Inv s g -> i < cap s -> g i <> GFree -> z <> GFree -> (full (g i) -> full z) ->
    slot_ok ro (set_slot s i y) i z -> Inv (set_slot s i y) (upd g i z).
  Proof.
    intros [I1 I2 I3 I4 I5 I6] Hi F1 F2 HF HS. constructor; try assumption.
    - intros j. destruct (Nat.eq_dec j i) as [->|N].
      + now rewrite upd_same.
      + rewrite upd_other by assumption. apply slot_ok_set_other; auto.
    - intros j. destruct (Nat.eq_dec j i) as [->|N].
      + rewrite upd_same. specialize (I4 i). simpl. tauto.
      + rewrite upd_other by assumption. apply I4.
    - intros j Hj. destruct (Nat.eq_dec j i) as [->|N].
      + rewrite upd_same. auto.
      + rewrite upd_other by assumption. auto.
    - intros u Hu. simpl in *. rewrite upd_other by lia. auto.
  Qed.

  Lemma guar_set t s g i y z :
    i < cap s -> g i <> GDead -> z <> GDead ->
    (filledp s i -> filledp (set_slot s i y) i) ->
    (forall u, u <> t -> own u z = own u (g i)) ->
    guar t s g (set_slot s i y) (upd g i z).
  Proof.
    intros Hi D1 D2 HF HO. constructor; auto.
    - intros u j N. destruct (Nat.eq_dec j i) as [->|N'].
      + rewrite upd_same. auto.
      + now rewrite upd_other.
    - intros j. destruct (Nat.eq_dec j i) as [->|N'].
      + rewrite upd_same. tauto.
      + now rewrite upd_other.
    - intros. simpl. tauto.
    - constructor; auto. intros j Fj. destruct (Nat.eq_dec j i) as [->|N]; [auto|].
      unfold filledp, set_slot in *; simpl. now rewrite upd_other.
  Qed.

  Lemma view_set t s g i y z L L' :
    view s g t L ->
    (forall j, lk t L' j = if j =? i then own t z else lk t L j) ->
    disj t L' -> Forall (kview s t) L' -> (Exists is_grow L -> Exists is_grow L') ->
    view (set_slot s i y) (upd g i z) t L'.
  Proof.
    intros [O D Kk W] HL HD HK HE. constructor.
    - intros j. rewrite HL. destruct (Nat.eqb_spec j i) as [->|N].
      + now rewrite upd_same.
      + rewrite upd_other by assumption. apply O.
    - assumption.
    - exact HK.
    - intros G. apply HE, W. exact G.
  Qed.

  Lemma lock_success t i s g L :
    i < cap s -> g i = GFull -> Inv s g -> view s g t L ->
    let s' := set_slot s i (lock_slot (slots s i)) in
    let g' := upd g i (GLock t LHeld) in
    Inv s' g' /\ view s' g' t (TLock i LHeld :: L) /\ guar t s g s' g' /\ quiet s s'.
  Proof.
    intros Hc G I W s' g'.
    pose proof (i_slot _ _ _ _ I i) as S0. rewrite G in S0. destruct S0 as (_ & S1 & S2 & S3 & S4).
    assert (N0 : own t (g i) = None) by (rewrite G; reflexivity).
    destruct (add_head t (TLock i LHeld) i L s g eq_refl N0 W) as (R1 & R2 & R3 & R4).
    split; [|split; [|split]].
    - apply inv_set; auto; try (rewrite G); try discriminate; try exact (fun _ => Logic.I).
      simpl. rewrite upd_same. unfold lock_slot. simpl.
      repeat (split; [assumption || reflexivity|]). exact S4.
    - eapply view_set; eauto.
    - apply guar_set; auto; try (rewrite G); try discriminate.
      + intros _. split; [assumption|]. simpl. rewrite upd_same. discriminate.
      + intros u N. apply own_none. simpl. congruence.
    - apply quiet_set; [assumption|]. unfold lock_slot. simpl. rewrite cell_lt, S1 by assumption. reflexivity.
  Qed.

  Lemma full_filledp_not s g i : Inv s g -> ~ full (g i) -> ~ filledp s i.
  Proof. intros I N F. apply N. eapply full_filled; eauto. Qed.

  (** one attempt *)
  Lemma st_Cas t i L s0 (K : _ -> list (tok V) -> list (acc V) -> shared -> Prop) :
    i < cap s0 ->
    (forall s, le s0 s -> good s -> filledp s i -> K (true, SOME) (TLock i LHeld :: L) [] s) ->
    (forall s, le s0 s -> good s -> filledp s i -> K (false, RESERVED) L [AcSt i RESERVED] s) ->
    (forall s, le s0 s -> good s -> ~ filledp s0 i -> K (false, NONE) L [AcSt i NONE] s) ->
    step_ok t (CasSt i SOME RESERVED) L s0 K.
  Proof.
    intros Hi H1 H2 H3 s g Le I W _.
    assert (Hc : i < cap s) by (pose proof (le_cap _ _ Le); lia).
    destruct (cas_cases t i s g L Hc I W) as [[G X]|[[N [X S]]|(u & m & G & X & S)]].
    - destruct (lock_success t i s g L Hc G I W) as (A & B & C & D).
      do 5 eexists. split; [exact X|]. split; [exact A|]. split; [exact B|]. split; [exact C|]. split; [exact D|].
      apply H1.
      + eapply le_trans; [eassumption|]. apply C.
      + eapply inv_good; eauto.
      + split; [assumption|]. simpl. rewrite upd_same. discriminate.
    - do 5 eexists. split; [exact X|]. split; [exact I|]. split; [exact W|]. split; [apply guar_refl|].
      split; [simpl; auto|]. apply H3; [assumption|eapply inv_good; eauto|].
      intros F. apply N. apply (full_filled _ _ _ _ _ I). apply Le. exact F.
    - do 5 eexists. split; [exact X|]. split; [exact I|]. split; [exact W|]. split; [apply guar_refl|].
      split; [simpl; auto|]. apply H2; [assumption|eapply inv_good; eauto|].
      apply (full_filled _ _ _ _ _ I). rewrite G. exact Logic.I.
  Qed.

  (** waiting for the lock *)
  Lemma sp_Cas nl t i L s0 (K : _ -> list (tok V) -> list (acc V) -> shared -> Prop) again :
    i < cap s0 -> (forall r, again r = (negb (fst r) && st_eqb (snd r) RESERVED)%bool) -> (nl = true -> L = []) ->
    (forall s, le s0 s -> good s -> filledp s i -> K (true, SOME) (TLock i LHeld :: L) [] s) ->
    (forall s, le s0 s -> good s -> ~ filledp s0 i -> K (false, NONE) L [AcSt i NONE] s) ->
    spinok nl (CasSt i SOME RESERVED) L again /\ spin_step t (CasSt i SOME RESERVED) again L s0 K.
  Proof.
    intros Hi Ha Hnl H1 H3. split; [simpl; auto|]. intros s g Le I W _.
    assert (Hc : i < cap s) by (pose proof (le_cap _ _ Le); lia).
    destruct (cas_cases t i s g L Hc I W) as [[G X]|[[N [X S]]|(u & m & G & X & S)]].
    - right. destruct (lock_success t i s g L Hc G I W) as (A & B & C & D).
      do 5 eexists. split; [exact X|]. split; [now rewrite Ha|]. split; [exact A|]. split; [exact B|]. split; [exact C|]. split; [exact D|].
      apply H1.
      + eapply le_trans; [eassumption|]. apply C.
      + eapply inv_good; eauto.
      + split; [assumption|]. simpl. rewrite upd_same. discriminate.
    - right. do 5 eexists. split; [exact X|]. split; [now rewrite Ha|]. split; [exact I|]. split; [exact W|]. split; [apply guar_refl|].
      split; [simpl; auto|]. apply H3; [assumption|eapply inv_good; eauto|].
      intros F. apply N. apply (full_filled _ _ _ _ _ I). apply Le. exact F.
    - left. do 2 eexists. split; [exact X|]. now rewrite Ha.
  Qed.

  (** *** the counters *)
  Lemma st_MaxWrtn t n o L s0 (K : _ -> list (tok V) -> list (acc V) -> shared -> Prop) :
    (forall i, i < n -> filledp s0 i) ->
    (forall s, le s0 s -> good s -> n <= wrtn s -> forall x, K x L [] s) ->
    step_ok t (MaxWrtn n o) L s0 K.
  Proof.
    intros Hn H s g Le I W _.
    set (s' := Shared (resv s) (Nat.max (wrtn s) n) (cap s) (maxc s) (growing s) (slots s)).
    assert (I' : Inv s' g).
    { destruct I as [I1 I2 I3 I4 I5 I6]. constructor; auto.
      intros i Hi. simpl in Hi. destruct (Nat.lt_ge_cases i (wrtn s)); [auto|].
      apply (full_filled E ro s g i); [constructor; auto|]. apply Le, Hn. lia. }
    assert (L' : le s s') by (constructor; simpl; try lia; auto).
    exists (wrtn s), s', [], g, L. split; [reflexivity|]. split; [assumption|].
    split; [destruct W; constructor; auto|]. split; [|split].
    - constructor; auto; intros; simpl; tauto.
    - split; [intros i|]; reflexivity.
    - apply H; [eapply le_trans; eauto|eapply inv_good; eauto|simpl; lia].
  Qed.

  (** reserving positions *)
  Lemma st_AddResv t n o L s0 (K : _ -> list (tok V) -> list (acc V) -> shared -> Prop) :
    (forall s s', le s0 s -> good s -> le s s' -> good s' -> resv s' = resv s + n -> maxc s' = maxc s ->
        K (resv s) (TPend (resv s) n KNo :: L) [AcAdd (resv s) n] s') ->
    step_ok t (AddResv n o) L s0 K.
  Proof.
    intros H s g Le I W Hf. simpl in Hf.
    set (b := resv s). set (s' := Shared (b + n) (wrtn s) (cap s) (maxc s) (growing s) (slots s)).
    set (g' := fun i => if (b <=? i) && (i <? b + n) then GPend t else g i).
    assert (Gb : forall i, b <= i -> g i = GFree) by (intros i Hi; now apply (i_free _ _ _ _ I)).
    assert (Gc : forall i, (b <=? i) && (i <? b + n) = true -> b <= i < b + n).
    { intros i X. apply andb_true_iff in X. destruct X as [X Y]. apply Nat.leb_le in X. apply Nat.ltb_lt in Y. lia. }
    assert (I' : Inv s' g').
    { constructor.
      - apply (i_cap _ _ _ _ I).
      - exact Hf.
      - intros i. unfold g'. destruct ((b <=? i) && (i <? b + n)) eqn:X.
        + pose proof (i_slot _ _ _ _ I i) as S0. rewrite Gb in S0 by (apply Gc in X; lia). exact S0.
        + pose proof (i_slot _ _ _ _ I i) as S0. destruct (g i) as [| | | | | |u [| |]]; exact S0.
      - intros i. unfold g'. simpl. destruct ((b <=? i) && (i <? b + n)) eqn:X.
        + apply Gc in X. split; [discriminate|lia].
        + rewrite (i_free _ _ _ _ I). fold b. apply andb_false_iff in X. rewrite Nat.leb_gt, Nat.ltb_ge in X. lia.
      - intros i Hi. unfold g'. destruct ((b <=? i) && (i <? b + n)) eqn:X.
        + apply Gc in X. pose proof (i_wrtn _ _ _ _ I i Hi) as F. rewrite Gb in F by lia. destruct F.
        + now apply (i_wrtn _ _ _ _ I).
      - intros u Hu. unfold g'. simpl in *. destruct ((b <=? cap s) && (cap s <? b + n)) eqn:X.
        + apply Gc in X. pose proof (i_grow _ _ _ _ I u Hu) as F. rewrite Gb in F by lia. discriminate.
        + now apply (i_grow _ _ _ _ I). }
    assert (L' : le s s') by (constructor; simpl; try lia; auto).
    assert (OG : forall u i, u <> t -> own u (g' i) = own u (g i)).
    { intros u i N. unfold g'. destruct ((b <=? i) && (i <? b + n)) eqn:X; [|reflexivity].
      rewrite Gb by (apply Gc in X; lia). apply own_none. simpl. congruence. }
    exists b, s', [AcAdd b n], g', (TPend b n KNo :: L).
    split. { simpl. fold b. unfold s'. now rewrite Nat.mod_small. }
    split; [assumption|]. split; [|split; [|split]].
    - destruct W as [O D Kk Wg]. constructor.
      + intros i. simpl. unfold g'. destruct ((b <=? i) && (i <? b + n)) eqn:X.
        * apply own_self. reflexivity.
        * apply O.
      + split; [|assumption]. intros i. simpl. destruct ((b <=? i) && (i <? b + n)) eqn:X; [|congruence].
        intros _. rewrite <- O. rewrite Gb by (apply Gc in X; lia). reflexivity.
      + constructor; [exact Logic.I|]. exact Kk.
      + intros. constructor 2. apply Wg. assumption.
    - constructor; auto.
      + intros i. unfold g'. destruct ((b <=? i) && (i <? b + n)) eqn:X; [|tauto].
        rewrite Gb by (apply Gc in X; lia). split; discriminate.
      + intros. simpl. tauto.
    - simpl. split; [reflexivity|]. split; [reflexivity|]. intros i. reflexivity.
    - apply (H s s'); auto; eapply inv_good; eauto.
  Qed.

  (** *** growth of the storage *)
  Lemma tokg_pend_in t b n k i : b <= i < b + n -> tokg t (TPend b n k : tok V) i = Some (GPend t).
  Proof. intros H. simpl. destruct (Nat.leb_spec b i), (Nat.ltb_spec i (b + n)); simpl; try lia; reflexivity. Qed.

  Lemma view_rek s g t a n k k' L :
    view s g t (TPend a n k :: L) -> kview s t (TPend a n k' : tok V) ->
    (is_grow (TPend a n k : tok V) -> is_grow (TPend a n k' : tok V)) -> view s g t (TPend a n k' :: L).
  Proof.
    intros [O D Kk W] HK HE. constructor; auto.
    - inversion Kk; subst. now constructor.
    - intros X. specialize (W X). inversion W; subst; [constructor|constructor 2]; auto.
  Qed.

  Lemma sp_LoadCap nl t b n L s0 (K : _ -> list (tok V) -> list (acc V) -> shared -> Prop) again :
    0 < n -> (forall c, again c = (c <? b)) -> (nl = true -> L = []) ->
    (forall s, le s0 s -> good s -> b + n <= cap s -> K (cap s) (TPend b n KNo :: L) [AcCap (cap s)] s) ->
    (forall s, le s0 s -> good s -> b <= cap s < b + n -> K (cap s) (TPend b n (KCap (cap s)) :: L) [AcCap (cap s)] s) ->
    spinok nl LoadCap (TPend b n KNo :: L) again /\ spin_step t LoadCap again (TPend b n KNo :: L) s0 K.
  Proof.
    intros Hn Ha Hnl H1 H2. split. { exists b, n, KNo, L. auto. }
    intros s g Le I W _. destruct (Nat.ltb_spec (cap s) b) as [Hb|Hb].
    - left. do 2 eexists. split; [reflexivity|]. rewrite Ha. now apply Nat.ltb_lt.
    - right. exists (cap s), s, [AcCap (cap s)], g.
      assert (A : again (cap s) = false) by (rewrite Ha; now apply Nat.ltb_ge).
      destruct (Nat.lt_ge_cases (cap s) (b + n)) as [Hc|Hc].
      + destruct (growing s) as [u|] eqn:Gr; [destruct (Nat.eq_dec u t) as [->|Nu]|].
        * (* a thread that allocates is not at this point *)
          exfalso. pose proof (v_grow _ _ _ _ W Gr) as Ex. inversion Ex as [? ? Y|? ? Y]; subst; [destruct Y|].
          rewrite Exists_exists in Y. destruct Y as (k & Hk & Hg).
          destruct k as [a' n' [| |c']| | |]; try destruct Hg.
          pose proof (v_k _ _ _ _ W) as Kk. inversion Kk as [|? ? _ Kk']; subst. rewrite Forall_forall in Kk'.
          specialize (Kk' _ Hk). simpl in Kk'. destruct Kk' as (C1 & C2 & _). subst c'.
          pose proof (v_disj _ _ _ _ W) as [D1 _]. specialize (D1 (cap s)).
          rewrite tokg_pend_in in D1 by lia. specialize (D1 ltac:(discriminate)).
          assert (X : lk t L (cap s) <> None).
          { apply lk_in_some. eexists. split; [exact Hk|]. rewrite tokg_pend_in by lia. discriminate. }
          congruence.
        * exists (TPend b n (KCap (cap s)) :: L). split; [reflexivity|]. split; [assumption|]. split; [assumption|].
          split. { eapply view_rek; eauto. simpl. split; [reflexivity|]. split; [lia|]. congruence. }
          split; [apply guar_refl|]. split; [simpl; auto|]. apply H2; auto. eapply inv_good; eauto.
        * exists (TPend b n (KCap (cap s)) :: L). split; [reflexivity|]. split; [assumption|]. split; [assumption|].
          split. { eapply view_rek; eauto. simpl. split; [reflexivity|]. split; [lia|]. congruence. }
          split; [apply guar_refl|]. split; [simpl; auto|]. apply H2; auto. eapply inv_good; eauto.
      + exists (TPend b n KNo :: L). split; [reflexivity|]. split; [assumption|]. split; [assumption|].
        split; [assumption|]. split; [apply guar_refl|]. split; [simpl; auto|]. apply H1; auto. eapply inv_good; eauto.
  Qed.

  Context (EOK : env_ok E).

  Lemma good_cap_max s : good s -> cap s <= maxc s.
  Proof. intros [g I]. apply (ok_le _ EOK). apply (i_cap _ _ _ _ I). Qed.

  Lemma st_GrowBeg t b n c m L s0 (K : _ -> list (tok V) -> list (acc V) -> shared -> Prop) :
    m <= maxc s0 ->
    (forall s, le s0 s -> good s -> cap s = c -> K true (TPend b n (KGrow c) :: L) [] s) ->
    step_ok t (GrowBeg m) (TPend b n (KCap c) :: L) s0 K.
  Proof.
    intros Hm H s g Le I W _.
    pose proof (v_k _ _ _ _ W) as Kk. inversion Kk as [|? ? K1 K2]; subst. simpl in K1. destruct K1 as (C1 & C2 & C3). subst c.
    pose proof (view_head _ _ _ _ _ _ _ W (tokg_pend_in t b n (KCap (cap s)) (cap s) C2)) as G.
    assert (Gr : growing s = None).
    { destruct (growing s) as [u|] eqn:Gr; [|reflexivity]. exfalso.
      pose proof (i_grow _ _ _ _ I u Gr) as X. rewrite G in X. injection X as ->. congruence. }
    destruct (ok_pol _ EOK (cap s) (maxc s) m (i_cap _ _ _ _ I)) as [c' Pc].
    { pose proof (le_max _ _ Le). lia. }
    set (s' := Shared (resv s) (wrtn s) (cap s) (maxc s) (Some t) (slots s)).
    exists true, s', [], g, (TPend b n (KGrow (cap s)) :: L).
    assert (I' : Inv s' g).
    { destruct I as [I1 I2 I3 I4 I5 I6]. constructor; auto.
      intros u Hu. simpl in *. injection Hu as <-. exact G. }
    assert (L' : le s s') by (constructor; simpl; try lia; auto).
    split. { simpl. rewrite Gr, Pc. reflexivity. }
    split; [assumption|]. split; [|split; [|split]].
    - destruct W as [O D _ Wg]. constructor; auto.
      + constructor.
        * simpl. auto.
        * rewrite Forall_forall in *. intros k Hk. specialize (K2 k Hk).
          destruct k as [a' n' [|c''|c'']| | |]; simpl in *; auto.
          -- exfalso. destruct K2 as (K3 & K4 & _). subst c''.
             destruct D as [D1 _]. specialize (D1 (cap s)). simpl in D1.
             rewrite (proj2 (andb_true_iff _ _)) in D1.
             ++ specialize (D1 ltac:(discriminate)).
                assert (X : lk t L (cap s) <> None).
                { apply lk_in_some. eexists. split; [exact Hk|]. rewrite tokg_pend_in by lia. discriminate. }
                congruence.
             ++ split; [apply Nat.leb_le|apply Nat.ltb_lt]; lia.
          -- destruct K2 as (_ & _ & K5). congruence.
      + intros _. constructor. simpl. exact Logic.I.
    - constructor; auto; try tauto.
      intros u N. simpl. rewrite Gr. split; [discriminate|congruence].
    - split; [intros i|]; reflexivity.
    - apply H; auto; [eapply le_trans; eauto|eapply inv_good; eauto].
  Qed.

  Lemma st_GrowEnd t b n c m L s0 (K : _ -> list (tok V) -> list (acc V) -> shared -> Prop) :
    m <= maxc s0 -> b + n = m ->
    (forall s, le s0 s -> good s -> m <= cap s -> K tt (TPend b n KNo :: L) [] s) ->
    step_ok t (GrowEnd m) (TPend b n (KGrow c) :: L) s0 K.
  Proof.
    intros Hm Hbn H s g Le I W _.
    pose proof (v_k _ _ _ _ W) as Kk. inversion Kk as [|? ? K1 K2]; subst. simpl in K1. destruct K1 as (C1 & C2 & C3). subst c.
    pose proof (view_head _ _ _ _ _ _ _ W (tokg_pend_in t b n (KGrow (cap s)) (cap s) C2)) as G.
    destruct (ok_pol _ EOK (cap s) (maxc s) (b + n) (i_cap _ _ _ _ I)) as [c' Pc].
    { pose proof (le_max _ _ Le). lia. }
    destruct (ok_pol' _ EOK _ _ _ _ (i_cap _ _ _ _ I) Pc) as (P1 & P2 & P3).
    set (s' := Shared (resv s) (wrtn s) c' (maxc s) None (fill_fresh (slots s) (cap s) c')).
    assert (SO : forall i, i < cap s -> slots s' i = slots s i).
    { intros i Hi. unfold s'; simpl. unfold fill_fresh. destruct (Nat.leb_spec (cap s) i); [lia|reflexivity]. }
    assert (SN : forall i, cap s <= i -> i < c' -> slots s' i = fresh).
    { intros i Hi Hi'. unfold s'; simpl. unfold fill_fresh. destruct (Nat.leb_spec (cap s) i), (Nat.ltb_spec i c'); simpl; try lia; reflexivity. }
    assert (NF : forall i, cap s <= i -> match g i with GFree | GPend _ | GDead => True | _ => False end).
    { intros i Hi. pose proof (i_slot _ _ _ _ I i) as S0. destruct (g i) as [| | | | | |u [| |]]; simpl in *; auto; lia. }
    assert (I' : Inv s' g).
    { constructor.
      - exact P3.
      - apply (i_wm _ _ _ _ I).
      - intros i. pose proof (i_slot _ _ _ _ I i) as S0. destruct (Nat.lt_ge_cases i (cap s)) as [Hi|Hi].
        + pose proof (SO i Hi) as SOi. assert (Hi' : i < cap s') by (simpl; lia).
          unfold slot_ok, rdok in *. rewrite SOi. destruct (g i) as [| | | | | |u [| |]]; intuition auto.
        + pose proof (NF i Hi) as X. destruct (g i); try destruct X; simpl slot_ok; intros Hc; apply SN; auto.
      - apply (i_free _ _ _ _ I).
      - apply (i_wrtn _ _ _ _ I).
      - simpl. discriminate. }
    assert (L' : le s s').
    { constructor; simpl; auto. intros i [F1 F2]. split; [simpl; lia|]. rewrite SO; auto. }
    exists tt, s', [], g, (TPend b n KNo :: L).
    split. { simpl. rewrite C3. simpl. rewrite Nat.eqb_refl, Pc. reflexivity. }
    split; [assumption|]. split; [|split; [|split]].
    - destruct W as [O D _ Wg].
      assert (NG : Forall (fun k => kview s' t k /\ ~ is_grow k) L).
      { rewrite Forall_forall in *. intros k Hk. specialize (K2 k Hk).
        destruct k as [a' n' [|c''|c'']| | |]; simpl in *; auto;
          exfalso; destruct K2 as (K3 & K4 & K5); subst c'';
          destruct D as [D1 _]; specialize (D1 (cap s)); simpl in D1;
          (rewrite (proj2 (andb_true_iff _ _)) in D1 by (split; [apply Nat.leb_le|apply Nat.ltb_lt]; lia));
          specialize (D1 ltac:(discriminate));
          (assert (X : lk t L (cap s) <> None)
            by (apply lk_in_some; eexists; split; [exact Hk|]; rewrite tokg_pend_in by lia; discriminate));
          congruence. }
      constructor; auto.
      + constructor; [exact Logic.I|]. eapply Forall_impl; [|exact NG]. simpl. tauto.
      + simpl. discriminate.
    - constructor; auto; try tauto.
      + intros u N. simpl. rewrite C3. split; congruence.
    - split; [|reflexivity]. intros i. unfold cell. simpl cap.
      destruct (Nat.ltb_spec i (cap s)) as [Hi|Hi]; destruct (Nat.ltb_spec i c') as [Hi'|Hi']; try lia.
      + rewrite SO by assumption. reflexivity.
      + rewrite SN by assumption. reflexivity.
      + reflexivity.
    - apply H; auto; [eapply le_trans; eauto|eapply inv_good; eauto].
  Qed.

  (** exchanging two locked values *)
  Lemma st_SwapEnd t i j L s0 (K : _ -> list (tok V) -> list (acc V) -> shared -> Prop) :
    ro = false ->
    (forall v w s, le s0 s -> good s -> i <> j -> K tt (TLock j LHeld :: TLock i LHeld :: L) [AcSwap i j v w] s) ->
    step_ok t (SwapEnd i j) (TLock j LWr :: TLock i LWr :: L) s0 K.
  Proof.
    intros Hro H s g Le I W _.
    assert (Hij : i <> j).
    { intros ->. pose proof (v_disj _ _ _ _ W) as [D _]. specialize (D j). simpl in D.
      rewrite Nat.eqb_refl in D. specialize (D ltac:(discriminate)). discriminate. }
    assert (Gj : g j = GLock t LWr) by (eapply view_head; eauto; simpl; now rewrite Nat.eqb_refl).
    assert (Gi : g i = GLock t LWr).
    { eapply view_in; eauto. simpl. apply Nat.eqb_neq in Hij. now rewrite Hij, Nat.eqb_refl. }
    pose proof (i_slot _ _ _ _ I i) as Si. rewrite Gi in Si. destruct Si as (Ci & Si1 & Si2 & Si3 & Si4 & _).
    pose proof (i_slot _ _ _ _ I j) as Sj. rewrite Gj in Sj. destruct Sj as (Cj & Sj1 & Sj2 & Sj3 & Sj4 & _).
    destruct (sval (slots s i)) as [v|] eqn:Vi; [|congruence].
    destruct (sval (slots s j)) as [w|] eqn:Vj; [|congruence].
    set (s1 := set_slot s i (Slot RESERVED (Some w) None [])).
    set (s2 := set_slot s1 j (Slot RESERVED (Some v) None [])).
    set (g1 := upd g i (GLock t LHeld)). set (g2 := upd g1 j (GLock t LHeld)).
    assert (I1 : Inv s1 g1).
    { apply inv_set; auto; try (rewrite Gi); try discriminate; try exact (fun _ => Logic.I). simpl. rewrite upd_same. simpl.
      repeat (split; [assumption || reflexivity || discriminate|]). now right. }
    assert (G1j : g1 j = GLock t LWr) by (unfold g1; rewrite upd_other by auto; assumption).
    assert (I2 : Inv s2 g2).
    { apply inv_set; auto; try (rewrite G1j); try discriminate; try exact (fun _ => Logic.I). simpl. rewrite upd_same. simpl.
      repeat (split; [assumption || reflexivity || discriminate|]). now right. }
    assert (LH : forall x, own t (GLock t x : gst V) = Some (GLock t x)) by (intros; now apply own_self).
    assert (W2 : view s2 g2 t (TLock j LHeld :: TLock i LHeld :: L)).
    { destruct W as [O D Kk Wg]. constructor.
      - intros k. specialize (O k). cbn [lk tokg] in O |- *. unfold g2, g1.
        destruct (Nat.eqb_spec k j) as [Ek|Nj]; [rewrite Ek; now rewrite upd_same|]. rewrite upd_other by assumption.
        destruct (Nat.eqb_spec k i) as [Ek|Ni]; [rewrite Ek; now rewrite upd_same|]. now rewrite upd_other by assumption.
      - destruct D as [D1 [D2 D3]]. simpl in *. split; [|split; [|assumption]].
        + intros k. specialize (D1 k). destruct (k =? j); [|congruence]. intros _. specialize (D1 ltac:(discriminate)).
          destruct (k =? i); [discriminate|assumption].
        + intros k. specialize (D2 k). destruct (k =? i); [|congruence]. intros _. apply D2. discriminate.
      - inversion Kk as [|? ? X1 X2]; subst. inversion X2; subst. repeat constructor. assumption.
      - intros X. specialize (Wg X). inversion Wg as [? ? Y|? ? Y]; subst; [destruct Y|].
        inversion Y as [? ? Z|? ? Z]; subst; [destruct Z|]. now do 2 constructor 2. }
    assert (GU : guar t s g s2 g2).
    { constructor; auto.
      - intros u k N. unfold g2, g1. unfold upd.
        destruct (Nat.eqb_spec k j) as [->|Nj]; [rewrite Gj; unfold own; simpl; now rewrite (proj2 (Nat.eqb_neq _ _) (not_eq_sym N))|].
        destruct (Nat.eqb_spec k i) as [->|Ni]; [rewrite Gi; unfold own; simpl; now rewrite (proj2 (Nat.eqb_neq _ _) (not_eq_sym N))|].
        reflexivity.
      - intros k. unfold g2, g1, upd.
        destruct (Nat.eqb_spec k j) as [->|Nj]; [rewrite Gj; split; discriminate|].
        destruct (Nat.eqb_spec k i) as [->|Ni]; [rewrite Gi; split; discriminate|]. tauto.
      - intros. simpl. tauto.
      - constructor; auto. intros k [F1 F2]. split; [assumption|]. simpl. unfold upd.
        destruct (k =? j); [discriminate|]. destruct (k =? i); [discriminate|assumption]. }
    exists tt, s2, [AcSwap i j v w], g2, (TLock j LHeld :: TLock i LHeld :: L).
    split. { simpl. rewrite with_slot_lt by assumption. rewrite with_slot_lt by assumption.
             rewrite Si3, Si4, Sj3, Sj4, Vi, Vj, Si1, Sj1. simpl. rewrite !Nat.eqb_refl. simpl. reflexivity. }
    split; [assumption|]. split; [assumption|]. split; [assumption|]. split.
    - simpl. split; [reflexivity|]. split; [assumption|]. rewrite !cell_lt by assumption. rewrite Si1, Sj1.
      split; [assumption|]. split; [assumption|]. intros k.
      unfold upd. destruct (Nat.eqb_spec k j) as [->|Nj].
      + unfold s2. now rewrite cell_set_same.
      + unfold s2. rewrite cell_set_other by assumption. unfold s1.
        destruct (Nat.eqb_spec k i) as [->|Ni]; [now rewrite cell_set_same|now rewrite cell_set_other].
    - apply H; auto; [eapply le_trans; [eassumption|]; apply GU|eapply inv_good; eauto].
  Qed.
End WP.
