(** * Ghost state, the invariant of the shared memory, and what each thread owns.

    Nothing here is part of the model; it is the vocabulary of the proofs. *)

From Coq Require Import List Arith Bool Lia Permutation.
From Verif.Model Require Import Prog Mem.
From Verif Require Import Client.
Import ListNotations.

Lemma upd_same {A} (f : nat -> A) i x : upd f i x i = x.
Proof. unfold upd. now rewrite Nat.eqb_refl. Qed.
Lemma upd_other {A} (f : nat -> A) i j x : j <> i -> upd f i x j = f j.
Proof. unfold upd. intros H. apply Nat.eqb_neq in H. now rewrite H. Qed.

Section Inv.
  Context {V : Type} (E : env V).
  (** [ro]: no thread writes to values (the grow-and-read discipline); readers may then read without
      holding the element. *)
  Context (ro : bool).

  (** ** Ghost status of a position *)
  Inductive lmode : Type := LHeld | LRd | LWr.
  Inductive gst : Type :=
  | GFree                       (* not reserved by any growth call *)
  | GPend (t : nat)             (* reserved by the running call of t, not yet written *)
  | GInit (t : nat)             (* value being written by t *)
  | GIniD (t : nat) (v : V)     (* value written by t, not yet published *)
  | GDead                       (* reserved by a call that panicked *)
  | GFull                       (* has a value *)
  | GLock (t : nat) (m : lmode). (* has a value, locked by t *)

  Definition owner (x : gst) : option nat :=
    match x with
    | GPend t | GInit t | GIniD t _ | GLock t _ => Some t
    | _ => None
    end.
  Definition own (t : nat) (x : gst) : option gst :=
    match owner x with
    | Some u => if u =? t then Some x else None
    | None => None
    end.
  Definition full (x : gst) : Prop := match x with GFull | GLock _ _ => True | _ => False end.

  Definition rdok (x : slot V) (l : list nat) : Prop := ro = true \/ srd x = l.

  Definition slot_ok (s : shared V) (i : nat) (x : gst) : Prop :=
    match x with
    | GFree | GPend _ | GDead =>
        i < cap s -> slots s i = fresh
    | GInit t =>
        i < cap s /\ sst (slots s i) = NONE /\ swr (slots s i) = Some t /\ srd (slots s i) = []
    | GIniD t v =>
        i < cap s /\ slots s i = Slot NONE (Some v) None []
    | GFull =>
        i < cap s /\ sst (slots s i) = SOME /\ sval (slots s i) <> None /\ swr (slots s i) = None
        /\ rdok (slots s i) []
    | GLock t LHeld =>
        i < cap s /\ sst (slots s i) = RESERVED /\ sval (slots s i) <> None /\ swr (slots s i) = None
        /\ rdok (slots s i) []
    | GLock t LRd =>
        i < cap s /\ sst (slots s i) = RESERVED /\ sval (slots s i) <> None /\ swr (slots s i) = None
        /\ rdok (slots s i) [t]
    | GLock t LWr =>
        i < cap s /\ sst (slots s i) = RESERVED /\ sval (slots s i) <> None /\ swr (slots s i) = Some t
        /\ srd (slots s i) = [] /\ ro = false
    end.

  Record Inv (s : shared V) (g : nat -> gst) : Prop := MkInv {
    i_cap : capok E (cap s) (maxc s);
    i_wm : resv s < wmod E;
    i_slot : forall i, slot_ok s i (g i);
    i_free : forall i, g i = GFree <-> resv s <= i;
    i_wrtn : forall i, i < wrtn s -> full (g i);
    i_grow : forall t, growing s = Some t -> g (cap s) = GPend t
  }.

  (** ** What one thread owns *)
  Inductive gk : Type := KNo | KCap (c : nat) | KGrow (c : nat).
  Inductive tok : Type :=
  | TPend (a n : nat) (k : gk)     (* positions a .. a+n-1 reserved and unwritten *)
  | TInit (a : nat)
  | TIniD (a : nat) (v : V)
  | TLock (i : nat) (m : lmode).

  Definition tokg (t : nat) (k : tok) (i : nat) : option gst :=
    match k with
    | TPend a n _ => if (a <=? i) && (i <? a + n) then Some (GPend t) else None
    | TInit a => if i =? a then Some (GInit t) else None
    | TIniD a v => if i =? a then Some (GIniD t v) else None
    | TLock j m => if i =? j then Some (GLock t m) else None
    end.

  Fixpoint lk (t : nat) (L : list tok) (i : nat) : option gst :=
    match L with
    | [] => None
    | k :: L' => match tokg t k i with Some x => Some x | None => lk t L' i end
    end.

  Fixpoint disj (t : nat) (L : list tok) : Prop :=
    match L with
    | [] => True
    | k :: L' => (forall i, tokg t k i <> None -> lk t L' i = None) /\ disj t L'
    end.

  (** knowledge about growth attached to the pending tokens *)
  Definition kview (s : shared V) (t : nat) (k : tok) : Prop :=
    match k with
    | TPend a n (KCap c) => cap s = c /\ a <= c < a + n /\ growing s <> Some t
    | TPend a n (KGrow c) => cap s = c /\ a <= c < a + n /\ growing s = Some t
    | _ => True
    end.
  Definition is_grow (k : tok) : Prop := match k with TPend _ _ (KGrow _) => True | _ => False end.

  Record view (s : shared V) (g : nat -> gst) (t : nat) (L : list tok) : Prop := MkView {
    v_own : forall i, own t (g i) = lk t L i;
    v_disj : disj t L;
    v_k : Forall (kview s t) L;
    v_grow : growing s = Some t -> Exists is_grow L
  }.

  (** ** Order of states: what never gets undone (between two calls of clear) *)
  Definition filledp (s : shared V) (i : nat) : Prop := i < cap s /\ sst (slots s i) <> NONE.
  Record le (s s' : shared V) : Prop := MkLe {
    le_resv : resv s <= resv s';
    le_wrtn : wrtn s <= wrtn s';
    le_cap : cap s <= cap s';
    le_max : maxc s' = maxc s;
    le_fill : forall i, filledp s i -> filledp s' i
  }.

  Lemma le_refl s : le s s.
  Proof. constructor; auto. Qed.
  Lemma le_trans s1 s2 s3 : le s1 s2 -> le s2 s3 -> le s1 s3.
  Proof. intros [] []; constructor; try lia; auto; congruence. Qed.

  (** ** What a step of thread [t] may do *)
  Record guar (t : nat) (s : shared V) (g : nat -> gst) (s' : shared V) (g' : nat -> gst) : Prop := MkGuar {
    gu_own : forall u i, u <> t -> own u (g' i) = own u (g i);
    gu_dead : forall i, g i = GDead <-> g' i = GDead;
    gu_grow : forall u, u <> t -> (growing s = Some u <-> growing s' = Some u);
    gu_cap : cap s' = cap s \/ g (cap s) = GPend t;
    gu_le : le s s'
  }.

  Definition good (s : shared V) : Prop := exists g, Inv s g.

  (** ** Consequences of the invariant *)
  Lemma full_filled s g i : Inv s g -> full (g i) <-> filledp s i.
  Proof.
    intros I. pose proof (i_slot _ _ I i) as S. unfold filledp.
    destruct (g i) eqn:G; simpl in *; split; try tauto.
    - intros [H1 H2]. rewrite (S H1) in H2. now apply H2.
    - intros [H1 H2]. rewrite (S H1) in H2. now apply H2.
    - intros [H1 H2]. destruct S as (_ & S). rewrite S in H2. now apply H2.
    - intros [H1 H2]. rewrite (S H1) in H2. now apply H2.
    - intros _. destruct S as (S1 & S2 & _). rewrite S2. split; [lia|discriminate].
    - intros _. destruct m; destruct S as (S1 & S2 & _); rewrite S2; (split; [lia|discriminate]).
  Qed.

  Lemma good_filled_wrtn s i : good s -> i < wrtn s -> filledp s i.
  Proof. intros [g I] H. apply (full_filled _ _ _ I), (i_wrtn _ _ I _ H). Qed.

  Lemma good_wrtn_cap s : good s -> wrtn s <= cap s.
  Proof.
    intros G. destruct (wrtn s) eqn:W; [lia|].
    destruct (good_filled_wrtn s n G) as [H _]; lia.
  Qed.

  Lemma good_filled_resv s i : good s -> filledp s i -> i < resv s.
  Proof.
    intros [g I] F. apply (full_filled _ _ _ I) in F.
    destruct (Nat.lt_ge_cases i (resv s)) as [|H]; [assumption|].
    apply (i_free _ _ I) in H. rewrite H in F. destruct F.
  Qed.

  Lemma good_wrtn_resv s : good s -> wrtn s <= resv s.
  Proof.
    intros G. destruct (wrtn s) eqn:W; [lia|].
    pose proof (good_filled_resv s n G (good_filled_wrtn s n G ltac:(lia))). lia.
  Qed.

  Lemma own_some t x y : own t x = Some y <-> y = x /\ owner x = Some t.
  Proof.
    unfold own. destruct (owner x) as [u|] eqn:O.
    - destruct (Nat.eqb_spec u t); split; try intros [= <-]; intuition congruence.
    - split; [discriminate|intuition congruence].
  Qed.
  Lemma own_none t x : own t x = None <-> owner x <> Some t.
  Proof.
    unfold own. destruct (owner x) as [u|] eqn:O.
    - destruct (Nat.eqb_spec u t); split; intuition congruence.
    - split; intuition congruence.
  Qed.

  Lemma view_head s g t k L i x : view s g t (k :: L) -> tokg t k i = Some x -> g i = x.
  Proof.
    intros W T. pose proof (v_own _ _ _ _ W i) as O. simpl in O. rewrite T in O.
    apply own_some in O. now destruct O.
  Qed.
  Lemma view_in s g t L i x : view s g t L -> lk t L i = Some x -> g i = x.
  Proof.
    intros W T. pose proof (v_own _ _ _ _ W i) as O. rewrite T in O.
    apply own_some in O. now destruct O.
  Qed.
  Lemma lk_owner t L i x : lk t L i = Some x -> owner x = Some t.
  Proof.
    induction L as [|k L IH]; simpl; [discriminate|].
    destruct (tokg t k i) eqn:T; [|auto].
    intros [= <-]. destruct k; simpl in T;
      repeat match goal with H : (if ?b then _ else _) = _ |- _ => destruct b; try discriminate end;
      injection T as <-; reflexivity.
  Qed.

  (** other threads are not disturbed *)
  Lemma view_guar t u s g s' g' L :
    u <> t -> Inv s g -> guar t s g s' g' -> view s g u L -> view s' g' u L.
  Proof.
    intros N I G [O D K W].
    assert (KC : forall a n k, In (TPend a n k) L -> a <= cap s < a + n -> cap s' = cap s).
    { intros a n k Hin Hc. destruct (gu_cap _ _ _ _ _ G) as [|Hp]; [assumption|].
      exfalso. pose proof (O (cap s)) as Oc. rewrite Hp in Oc.
      assert (X : own u (GPend t) = None) by (apply own_none; simpl; congruence).
      rewrite X in Oc. symmetry in Oc.
      clear - Hin Hc Oc. induction L as [|k' L IH]; [destruct Hin|].
      simpl in Oc. destruct Hin as [->|Hin].
      + simpl in Oc. destruct (Nat.leb_spec a (cap s)), (Nat.ltb_spec (cap s) (a + n)); simpl in *; try lia; discriminate.
      + destruct (tokg u k' (cap s)); [discriminate|auto]. }
    constructor.
    - intros i. rewrite (gu_own _ _ _ _ _ G) by assumption. apply O.
    - assumption.
    - apply Forall_forall. intros k Hin. rewrite Forall_forall in K. specialize (K k Hin).
      pose proof (gu_grow _ _ _ _ _ G u N) as Gr.
      destruct k as [a n [|c|c]| | | ]; simpl in *; auto;
      destruct K as (K1 & K2 & K3); subst c;
      (split; [eapply KC; eauto|split; [lia|tauto]]).
    - intros H. apply W. apply (gu_grow _ _ _ _ _ G u N). exact H.
  Qed.

  (** ** permuting tokens *)
  Lemma lk_in_some t L i : lk t L i <> None <-> exists k, In k L /\ tokg t k i <> None.
  Proof.
    induction L as [|k L IH]; simpl.
    - split; [congruence|]. intros (k & [] & _).
    - destruct (tokg t k i) eqn:T.
      + split; [|congruence]. intros _. exists k. split; [auto|congruence].
      + rewrite IH. split.
        * intros (k' & ? & ?). exists k'. auto.
        * intros (k' & [<-|?] & ?); [congruence|]. eauto.
  Qed.

  Lemma lk_perm t L L' : Permutation L L' -> disj t L -> (forall i, lk t L' i = lk t L i) /\ disj t L'.
  Proof.
    induction 1 as [|k L L' P IH|a b L|L1 L2 L3 P1 IH1 P2 IH2]; intros D.
    - split; auto.
    - destruct D as [D1 D2]. destruct (IH D2) as [H1 H2]. split.
      + intros i. simpl. now rewrite H1.
      + split; [|assumption]. intros i Hi. rewrite H1. auto.
    - destruct D as [D1 [D2 D3]]. simpl in *. split.
      + intros i. destruct (tokg t a i) eqn:A, (tokg t b i) eqn:B; auto.
        specialize (D1 i). rewrite B, A in D1. specialize (D1 ltac:(discriminate)). discriminate.
      + assert (X : forall i, tokg t a i <> None -> tokg t b i = None).
        { intros i Hi. destruct (tokg t b i) eqn:B; [|reflexivity].
          specialize (D1 i). rewrite B in D1. specialize (D1 ltac:(discriminate)).
          destruct (tokg t a i); congruence. }
        split; [|split; [|assumption]].
        * intros i Hi. rewrite (X i Hi). auto.
        * intros i Hi. specialize (D1 i Hi). destruct (tokg t a i); [discriminate|assumption].
    - destruct (IH1 D) as [H1 H2]. destruct (IH2 H2) as [H3 H4]. split; [|assumption].
      intros i. now rewrite H3.
  Qed.

  Lemma view_perm s g t L L' : Permutation L L' -> view s g t L -> view s g t L'.
  Proof.
    intros P [O D K W]. destruct (lk_perm t L L' P D) as [H1 H2]. constructor.
    - intros i. rewrite H1. apply O.
    - assumption.
    - eapply Permutation_Forall; eauto.
    - intros H. specialize (W H). rewrite Exists_exists in *. destruct W as (k & Hk & ?).
      exists k. split; [|assumption]. eapply Permutation_in; eauto.
  Qed.
End Inv.

Global Arguments gst : clear implicits.
Global Arguments tok : clear implicits.
