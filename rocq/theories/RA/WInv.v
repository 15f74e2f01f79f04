(** * Invariant of the view machine and what each access does to it. *)

From Coq Require Import List Arith Bool Lia.
From Verif.Model Require Import Prog Mem Deps State Elem Vec Excl Machine.
From Verif Require Import Client.
From Verif.RA Require Import Weak.
Import ListNotations.
Local Arguments Nat.leb : simpl never.
Local Arguments Nat.ltb : simpl never.
Local Arguments Nat.eqb : simpl never.
Local Arguments Nat.add : simpl never.
Local Arguments Nat.sub : simpl never.
Local Arguments Nat.max : simpl never.

(** ** Views *)
Lemma vle_refl x : vle x x.
Proof. repeat split; auto. Qed.
Lemma vle_trans x y z : vle x y -> vle y z -> vle x z.
Proof.
  intros (A1 & A2 & A3 & A4 & A5 & A6) (B1 & B2 & B3 & B4 & B5 & B6).
  repeat split; try lia; intros i; auto; [specialize (A4 i); specialize (B4 i)|specialize (A5 i); specialize (B5 i)]; lia.
Qed.
Lemma vle_join_l x y : vle x (vjoin x y).
Proof. unfold vjoin. repeat split; simpl; try lia; intros i; try lia. intros r ->. reflexivity. Qed.
Lemma vle_join_r x y : vle y (vjoin x y).
Proof. unfold vjoin. repeat split; simpl; try lia; intros i; try lia. intros r ->. apply orb_true_r. Qed.
Lemma vle_acq o {A} (m : msg A) x : vle x (acq o m x).
Proof. unfold acq. destruct (acquires o); [apply vle_join_l|apply vle_refl]. Qed.
Lemma vle_set_resv k x : v_resv x <= k -> vle x (set_resv k x).
Proof. repeat split; simpl; auto. Qed.
Lemma vle_set_wrtn k x : v_wrtn x <= k -> vle x (set_wrtn k x).
Proof. repeat split; simpl; auto. Qed.
Lemma vle_set_cap k x : v_cap x <= k -> vle x (set_cap k x).
Proof. repeat split; simpl; auto. Qed.
Lemma vle_set_st i k x : v_st x i <= k -> vle x (set_st i k x).
Proof. intros H. repeat split; simpl; auto. intros j. unfold upd. destruct (Nat.eqb_spec j i) as [->|]; auto. Qed.
Lemma vle_set_w i k x : v_w x i <= k -> vle x (set_w i k x).
Proof. intros H. repeat split; simpl; auto. intros j. unfold upd. destruct (Nat.eqb_spec j i) as [->|]; auto. Qed.
Lemma vle_add_r i r x : vle x (add_r i r x).
Proof. repeat split; simpl; auto. intros j q H. unfold upd. destruct (Nat.eqb_spec j i) as [->|]; auto. now rewrite H, orb_true_r. Qed.

(** ** Ghost state of a position; [id] is a call *)
Inductive wgst : Type :=
| GFree               (* not reserved *)
| GOwn (id : nat)     (* reserved, the value not written yet *)
| GWr (id : nat)      (* value written, not published yet *)
| GLost               (* reserved, its call ended without writing it *)
| GHas                (* available *)
| GLock (id : nat).   (* available, handle held by [id] *)

(** What a call holds: the positions [t_b .. t_b+t_n-1], a written position, handles; [t_f]: it did not grow
    the storage; [t_k]: it knows the latest capacity and owns the position with this number; [t_g]: it is
    growing the storage. *)
Record toks : Type := Tok { t_b : nat; t_n : nat; t_w : option nat; t_l : list nat; t_f : bool; t_k : bool; t_g : bool }.
Definition tok0 : toks := Tok 0 0 None [] true false false.

Definition prefix {A} (l l' : list A) : Prop := exists r, l' = l ++ r.
Lemma prefix_refl {A} (l : list A) : prefix l l.
Proof. exists []. now rewrite app_nil_r. Qed.
Lemma prefix_trans {A} (x y z : list A) : prefix x y -> prefix y z -> prefix x z.
Proof. intros [a ->] [b ->]. exists (a ++ b). now rewrite app_assoc. Qed.
Lemma prefix_app {A} (l r : list A) : prefix l (l ++ r).
Proof. now exists r. Qed.
Lemma prefix_nth {A} (l l' : list A) k x : prefix l l' -> nth_error l k = Some x -> nth_error l' k = Some x.
Proof. intros [r ->] H. rewrite nth_error_app1; auto. apply nth_error_Some. congruence. Qed.
Lemma prefix_len {A} (l l' : list A) : prefix l l' -> length l <= length l'.
Proof. intros [r ->]. rewrite app_length. lia. Qed.
Lemma nth_snoc {A} (l : list A) x k y : nth_error (l ++ [x]) k = Some y -> nth_error l k = Some y \/ (k = length l /\ y = x).
Proof.
  intros H. destruct (Nat.lt_ge_cases k (length l)) as [L|L]; [rewrite nth_error_app1 in H by lia; auto|].
  rewrite nth_error_app2 in H by lia. destruct (k - length l) as [|q] eqn:Q; simpl in H; [injection H as <-; right; split; [lia|reflexivity]|destruct q; discriminate].
Qed.
Lemma nth_last {A} (l : list A) x : nth_error (l ++ [x]) (length l) = Some x.
Proof. rewrite nth_error_app2, Nat.sub_diag by lia. reflexivity. Qed.
Lemma last_ts_snoc {A} (l : list (msg A)) m : last_ts (l ++ [m]) = length l.
Proof. unfold last_ts. rewrite app_length. simpl. lia. Qed.
Lemma latest_snoc l m : latest (l ++ [m]) = mval m.
Proof. unfold latest. now rewrite last_ts_snoc, nth_last. Qed.

Section WInv.
  Context {V : Type} (E : env V) (ro : bool).
  Notation wmem := (wmem V).
  Notation wslot := (wslot V).
  Implicit Types (M : wmem) (g : nat -> wgst) (tv : view) (L : toks).

  Definition sl M i := m_slots M i.
  Definition published M i : Prop := exists k m, nth_error (ws (sl M i)) k = Some m /\ mval m <> NONE.

  (** the memory only grows *)
  Record mle M M' : Prop := MLe {
    le_resv : prefix (m_resv M) (m_resv M');
    le_wrtn : prefix (m_wrtn M) (m_wrtn M');
    le_cap : prefix (m_cap M) (m_cap M');
    le_max : m_max M' = m_max M;
    le_st : forall i, prefix (ws (sl M i)) (ws (sl M' i));
    le_ww : forall i, ww (sl M i) <= ww (sl M' i);
    le_ro : ro = true -> forall i, wv (sl M i) <> None -> ww (sl M' i) = ww (sl M i) /\ wv (sl M' i) = wv (sl M i)
  }.
  Lemma mle_refl M : mle M M.
  Proof. constructor; auto using prefix_refl. Qed.
  Lemma published_le M M' i : mle M M' -> published M i -> published M' i.
  Proof. intros H (k & m & H1 & H2). exists k, m. split; [|assumption]. eapply prefix_nth; eauto. apply (le_st _ _ H). Qed.
  Lemma mle_trans M1 M2 M3 : mle M1 M2 -> mle M2 M3 -> mle M1 M3.
  Proof.
    intros A B. constructor; try (eapply prefix_trans; [apply A|apply B]).
    - rewrite (le_max _ _ B). apply A.
    - intros i. eapply prefix_trans; [apply A|apply B].
    - intros i. etransitivity; [apply (le_ww _ _ A)|apply (le_ww _ _ B)].
    - intros R i P. destruct (le_ro _ _ A R i P) as [X Y]. rewrite <- X, <- Y in *. now apply (le_ro _ _ B).
  Qed.

  (** the messages a view mentions exist *)
  Definition vok M tv : Prop :=
    v_resv tv < length (m_resv M) /\ v_wrtn tv < length (m_wrtn M) /\ v_cap tv < length (m_cap M) /\
    (forall i, v_st tv i < length (ws (sl M i))) /\ (forall i, v_w tv i <= ww (sl M i)).
  Lemma vok_le M M' tv : mle M M' -> vok M tv -> vok M' tv.
  Proof.
    intros H (A & B & C & D & F). pose proof (prefix_len _ _ (le_resv _ _ H)). pose proof (prefix_len _ _ (le_wrtn _ _ H)). pose proof (prefix_len _ _ (le_cap _ _ H)).
    repeat split; try lia; intros i; [pose proof (prefix_len _ _ (le_st _ _ H i)); specialize (D i); lia|pose proof (le_ww _ _ H i); specialize (F i); lia].
  Qed.
  Lemma vok_join M x y : vok M x -> vok M y -> vok M (vjoin x y).
  Proof.
    intros (A & B & C & D & F) (A' & B' & C' & D' & F'). unfold vjoin. repeat split; simpl; try lia; intros i; [specialize (D i); specialize (D' i)|specialize (F i); specialize (F' i)]; lia.
  Qed.
  Lemma vok_acq o {A} M (m : msg A) tv : vok M tv -> vok M (mview m) -> vok M (acq o m tv).
  Proof. intros. unfold acq. destruct (acquires o); auto. now apply vok_join. Qed.
  Lemma vok_rel o {A} M (m : msg A) tv : vok M tv -> vok M (mview m) -> vok M (rel o m tv).
  Proof. intros. unfold rel. destruct (releases o); auto. now apply vok_join. Qed.

  (** ** What a view shows *)
  Definition seen_resv M tv n : Prop := exists m, nth_error (m_resv M) (v_resv tv) = Some m /\ n <= mval m.
  Definition seen_wrtn M tv n : Prop := exists m, nth_error (m_wrtn M) (v_wrtn tv) = Some m /\ n <= mval m.
  Definition seen_some M tv i : Prop := exists m, nth_error (ws (sl M i)) (v_st tv i) = Some m /\ mval m <> NONE.
  Definition avail M tv i : Prop := i < capv M tv /\ seen_some M tv i.
  Definition pub M tv n : Prop := n <= capv M tv /\ seen_resv M tv n /\ forall i, i < n -> seen_some M tv i.

  (** ** The invariant *)
  Definition none0 : msg st := Msg NONE vbot false 0.
  Definition covers M tv i : Prop :=
    v_w tv i = ww (sl M i) /\ (ro = false -> forall r, r < wr (sl M i) -> v_r tv i r = true).
  Record chain M i : Prop := Chain {
    ch_some : forall j k m m', j <= k -> nth_error (ws (sl M i)) j = Some m -> nth_error (ws (sl M i)) k = Some m' -> mval m <> NONE -> mval m' <> NONE;
    ch_rmw : forall k m m', nth_error (ws (sl M i)) k = Some m -> mval m = SOME -> nth_error (ws (sl M i)) (S k) = Some m' -> mrmw m' = true;
    ch_ro : ro = true -> forall m, In m (ws (sl M i)) -> mval m <> NONE -> v_w (mview m) i = ww (sl M i);
    ch_val : exists v, wv (sl M i) = Some v
  }.
  Definition ends M i (x : st) (P : msg st -> Prop) : Prop :=
    exists m, nth_error (ws (sl M i)) (last_ts (ws (sl M i))) = Some m /\ mval m = x /\ P m.
  Definition slotok M i (x : wgst) : Prop :=
    match x with
    | GFree | GOwn _ => sl M i = wfresh
    | GWr _ => exists v, sl M i = WSlot [none0] 1 0 (Some v)
    | GLost => ws (sl M i) = [none0]
    | GHas => chain M i /\ ends M i SOME (fun m => covers M (mview m) i)
    | GLock _ => chain M i /\ ends M i RESERVED (fun _ => True)
    end.
  Definition unused (x : wgst) : Prop := match x with GFree | GOwn _ | GLost => True | _ => False end.

  Record WI M g : Prop := MkWI {
    wi_resv : forall j k m m', j <= k -> nth_error (m_resv M) j = Some m -> nth_error (m_resv M) k = Some m' -> mval m <= mval m';
    wi_resv_v : forall m, In m (m_resv M) -> vok M (mview m);
    wi_wrtn_v : forall m, In m (m_wrtn M) -> vok M (mview m) /\ pub M (mview m) (mval m);
    wi_cap_v : forall m, In m (m_cap M) -> vok M (mview m);
    wi_cap_ok : capok E (latest (m_cap M)) (m_max M);
    wi_cap : forall j k m m', j < k -> nth_error (m_cap M) j = Some m -> nth_error (m_cap M) k = Some m' -> mval m < mval m';
    wi_grown : forall k m m', nth_error (m_cap M) k = Some m -> nth_error (m_cap M) (S k) = Some m' ->
      g (mval m) <> GFree /\ forall id, g (mval m) = GOwn id -> mby m' = id;
    wi_free : forall i, g i = GFree <-> latest (m_resv M) <= i;
    wi_slot : forall i, slotok M i (g i);
    wi_slot_v : forall i m, In m (ws (sl M i)) -> vok M (mview m);
    wi_beyond : forall i, latest (m_cap M) <= i -> sl M i = wfresh /\ unused (g i);
    wi_grow : forall id, m_grow M = Some id -> g (latest (m_cap M)) = GOwn id;
    wi_ne : m_resv M <> [] /\ m_wrtn M <> [] /\ m_cap M <> [];
    wi_wrtn : forall j k m m', j <= k -> nth_error (m_wrtn M) j = Some m -> nth_error (m_wrtn M) k = Some m' -> mval m <= mval m'
  }.

  (** the part of the invariant that call [id] with view [tv] relies on *)
  Record wview M g (id : nat) tv L : Prop := MkView {
    vw_ok : vok M tv;
    vw_own : forall i, g i = GOwn id <-> t_b L <= i < t_b L + t_n L;
    vw_wr : forall i, g i = GWr id <-> t_w L = Some i;
    vw_lock : forall i, g i = GLock id <-> In i (t_l L);
    vw_wcov : forall i, t_w L = Some i -> v_w tv i = ww (sl M i);
    vw_lcov : forall i, In i (t_l L) -> covers M tv i /\ v_st tv i = last_ts (ws (sl M i));
    vw_f : t_f L = true -> forall m, In m (m_cap M) -> mby m <> id;
    vw_k : t_k L = true -> v_cap tv = last_ts (m_cap M) /\ t_b L <= latest (m_cap M) < t_b L + t_n L;
    vw_g : m_grow M = Some id <-> t_g L = true
  }.

  (** the parts of the memory that belong to [id] *)
  Definition same_for (id : nat) M g M' g' : Prop :=
    (forall i, g' i = GOwn id <-> g i = GOwn id) /\ (forall i, g' i = GWr id <-> g i = GWr id) /\ (forall i, g' i = GLock id <-> g i = GLock id) /\
    (forall i, g i = GOwn id \/ g i = GWr id -> sl M' i = sl M i) /\
    (forall i, g i = GLock id -> ws (sl M' i) = ws (sl M i) /\ ww (sl M' i) = ww (sl M i) /\ (ro = false -> wr (sl M' i) = wr (sl M i))) /\
    (m_grow M' = Some id <-> m_grow M = Some id) /\
    (g (latest (m_cap M)) = GOwn id -> m_cap M' = m_cap M) /\
    (forall m, In m (m_cap M') -> mby m = id -> In m (m_cap M)) /\
    (forall i, g i = GLost -> g' i = GLost).
  Definition guar (id : nat) M g M' g' : Prop := mle M M' /\ forall id', id' <> id -> same_for id' M g M' g'.

  Lemma wview_stable id id' M g M' g' tv L : id' <> id -> guar id M g M' g' -> wview M g id' tv L -> wview M' g' id' tv L.
  Proof.
    intros Ne [Le S] W. destruct (S id' Ne) as (S1 & S2 & S3 & S4 & S5 & S6 & S7 & S8 & _). destruct W. constructor; auto.
    - eapply vok_le; eauto.
    - intros i. rewrite S1. auto.
    - intros i. rewrite S2. auto.
    - intros i. rewrite S3. auto.
    - intros i Hi. rewrite S4 by (right; now apply vw_wr0). auto.
    - intros i Hi. apply vw_lock0 in Hi as Hg. destruct (S5 i Hg) as (A & B & C). destruct (vw_lcov0 i Hi) as [[D F] H]. rewrite A. split; [|assumption]. split; [congruence|].
      intros R r Hr. apply F; auto. rewrite <- C; auto.
    - intros F m Hm Hb. apply (vw_f0 F m); auto.
    - intros K. destruct (vw_k0 K) as [A B]. rewrite S7; [auto|]. now apply vw_own0.
    - rewrite S6. auto.
  Qed.

  (** ** Monotonicity of what a view shows *)
  Definition good M : Prop := exists g, WI M g.

  Lemma capv_mono M tv tv' : good M -> v_cap tv <= v_cap tv' -> v_cap tv' < length (m_cap M) -> capv M tv <= capv M tv'.
  Proof.
    intros [g W] H H1. unfold capv. destruct (nth_error (m_cap M) (v_cap tv)) as [m|] eqn:Q; [|lia].
    destruct (nth_error (m_cap M) (v_cap tv')) as [m'|] eqn:Q'; [|apply nth_error_None in Q'; lia].
    destruct (Nat.eq_dec (v_cap tv) (v_cap tv')) as [e|]; [rewrite e in Q; rewrite Q in Q'; injection Q' as <-; lia|].
    pose proof (wi_cap _ _ W (v_cap tv) (v_cap tv') m m' ltac:(lia) Q Q'). lia.
  Qed.
  Lemma capv_le M M' tv : mle M M' -> vok M tv -> capv M' tv = capv M tv.
  Proof.
    intros H (_ & _ & C & _). unfold capv. destruct (nth_error (m_cap M) (v_cap tv)) as [m|] eqn:Q; [|apply nth_error_None in Q; lia].
    now rewrite (prefix_nth _ _ _ _ (le_cap _ _ H) Q).
  Qed.
  Lemma capv_up M tv M' tv' : mle M M' -> vle tv tv' -> vok M tv -> good M' -> vok M' tv' -> capv M tv <= capv M' tv'.
  Proof.
    intros H (_ & _ & A & _) O G (_ & _ & C & _). rewrite <- (capv_le M M' tv H O). now apply capv_mono.
  Qed.
  Lemma latest_bound M tv : good M -> capv M tv <= latest (m_cap M).
  Proof.
    intros [g W]. unfold capv, latest, last_ts. destruct (nth_error (m_cap M) (v_cap tv)) as [m|] eqn:Q; [|lia].
    assert (v_cap tv < length (m_cap M)) by (apply nth_error_Some; congruence).
    destruct (nth_error (m_cap M) (length (m_cap M) - 1)) as [m'|] eqn:Q'; [|apply nth_error_None in Q'; lia].
    destruct (Nat.eq_dec (v_cap tv) (length (m_cap M) - 1)) as [e|]; [rewrite e in Q; rewrite Q in Q'; injection Q' as <-; lia|].
    pose proof (wi_cap _ _ W (v_cap tv) (length (m_cap M) - 1) m m' ltac:(lia) Q Q'). lia.
  Qed.
  Lemma seen_resv_up M tv M' tv' n : mle M M' -> vle tv tv' -> good M' -> vok M' tv' -> seen_resv M tv n -> seen_resv M' tv' n.
  Proof.
    intros H (A & _) [g W] (B & _) (m & Q & Hn). destruct (nth_error (m_resv M') (v_resv tv')) as [m'|] eqn:Q'; [|apply nth_error_None in Q'; lia].
    exists m'. split; [assumption|]. pose proof (prefix_nth _ _ _ _ (le_resv _ _ H) Q) as Q2. pose proof (wi_resv _ _ W _ _ m m' A Q2 Q'). lia.
  Qed.
  Lemma seen_wrtn_up M tv M' tv' n : mle M M' -> vle tv tv' -> good M' -> vok M' tv' -> seen_wrtn M tv n -> seen_wrtn M' tv' n.
  Proof.
    intros H (_ & A & _) [g W] (_ & B & _) (m & Q & Hn). destruct (nth_error (m_wrtn M') (v_wrtn tv')) as [m'|] eqn:Q'; [|apply nth_error_None in Q'; lia].
    exists m'. split; [assumption|]. pose proof (prefix_nth _ _ _ _ (le_wrtn _ _ H) Q) as Q2. pose proof (wi_wrtn _ _ W _ _ m m' A Q2 Q'). lia.
  Qed.
  Lemma published_chain M g i : WI M g -> published M i -> chain M i.
  Proof.
    intros W (k & m & Q & N). pose proof (wi_slot _ _ W i) as S. destruct (g i); simpl in S; try tauto.
    - rewrite S in Q. simpl in Q. destruct k as [|[|k]]; try discriminate. injection Q as <-. now destruct N.
    - rewrite S in Q. simpl in Q. destruct k as [|[|k]]; try discriminate. injection Q as <-. now destruct N.
    - destruct S as [v S]. rewrite S in Q. simpl in Q. destruct k as [|[|k]]; try discriminate. injection Q as <-. now destruct N.
    - rewrite S in Q. destruct k as [|[|k]]; try discriminate. injection Q as <-. now destruct N.
  Qed.
  Lemma seen_published M tv i : seen_some M tv i -> published M i.
  Proof. intros (m & Q & N). now exists (v_st tv i), m. Qed.
  Lemma seen_some_up M tv M' tv' i : mle M M' -> vle tv tv' -> good M' -> vok M' tv' -> seen_some M tv i -> seen_some M' tv' i.
  Proof.
    intros H (_ & _ & _ & A & _) [g W] (_ & _ & _ & B & _) S. pose proof (published_le _ _ _ H (seen_published _ _ _ S)) as P. destruct S as (m & Q & N).
    specialize (B i). destruct (nth_error (ws (sl M' i)) (v_st tv' i)) as [m'|] eqn:Q'; [|apply nth_error_None in Q'; lia].
    exists m'. split; [assumption|]. pose proof (prefix_nth _ _ _ _ (le_st _ _ H i) Q) as Q2.
    exact (ch_some _ _ (published_chain _ _ _ W P) _ _ m m' (A i) Q2 Q' N).
  Qed.
  Lemma avail_up M tv M' tv' i : mle M M' -> vle tv tv' -> vok M tv -> good M' -> vok M' tv' -> avail M tv i -> avail M' tv' i.
  Proof.
    intros H A O G O' [X Y]. split; [pose proof (capv_up _ _ _ _ H A O G O'); lia|]. eapply seen_some_up; eauto.
  Qed.
  Lemma pub_up M tv M' tv' n : mle M M' -> vle tv tv' -> vok M tv -> good M' -> vok M' tv' -> pub M tv n -> pub M' tv' n.
  Proof.
    intros H A O G O' (X & Y & Z). split; [pose proof (capv_up _ _ _ _ H A O G O'); lia|]. split; [eapply seen_resv_up; eauto|]. intros i Hi. eapply seen_some_up; eauto.
  Qed.
End WInv.
