(** * Soundness: what holds of every execution of the machine. *)

From Coq Require Import List Arith Bool Lia Permutation.
From Verif.Model Require Import Prog Mem Deps State Elem Vec Excl Machine.
From Verif Require Import Spec Client.
From Verif.Logic Require Import Inv WP Post Specs Ops.
Import ListNotations.
Local Arguments Nat.leb : simpl never.
Local Arguments Nat.ltb : simpl never.
Local Arguments Nat.eqb : simpl never.
Local Arguments Nat.add : simpl never.
Local Arguments Nat.sub : simpl never.

Section Lists.
  Context {V : Type}.
  Notation history := (list (event V)).

  Lemma each_nil (P : history -> event V -> Prop) : each P [].
  Proof. intros h1 e h2 H. destruct h1; discriminate. Qed.

  Lemma snoc_split {A} (h : list A) e h1 e1 h2 :
    h ++ [e] = h1 ++ e1 :: h2 ->
    (h = h1 /\ e = e1 /\ h2 = []) \/ exists h2', h2 = h2' ++ [e] /\ h = h1 ++ e1 :: h2'.
  Proof.
    destruct (@exists_last _ (e1 :: h2) ltac:(discriminate)) as (l & x & Hl).
    destruct h2 as [|y h2].
    - intros H. left. apply app_inj_tail in H. destruct H. auto.
    - intros H. right. destruct (@exists_last _ (y :: h2) ltac:(discriminate)) as (l' & x' & Hl').
      rewrite Hl' in *. change (h1 ++ e1 :: l' ++ [x']) with (h1 ++ (e1 :: l') ++ [x']) in H.
      rewrite app_assoc in H. apply app_inj_tail in H. destruct H as [-> ->]. exists l'. auto.
  Qed.

  Lemma each_snoc (P : history -> event V -> Prop) h e : each P h -> P h e -> each P (h ++ [e]).
  Proof.
    intros H He h1 e1 h2 X. apply snoc_split in X. destruct X as [(-> & -> & ->)|(h2' & -> & ->)]; auto.
    eapply H; eauto.
  Qed.

  Lemma each_mono (P Q : history -> event V -> Prop) h :
    (forall h1 e h2, h = h1 ++ e :: h2 -> P h1 e -> Q h1 e) -> each P h -> each Q h.
  Proof. intros H X h1 e h2 ->. eapply H; eauto. Qed.

  Lemma replay_snoc (a : abs V) h e : replay a (h ++ [e]) = apply (replay a h) e.
  Proof. unfold replay. rewrite fold_left_app. reflexivity. Qed.
  Lemma replay_app (a : abs V) h h' : replay a (h ++ h') = replay (replay a h) h'.
  Proof. unfold replay. apply fold_left_app. Qed.

  Lemma accs_app id (h h' : history) : accs id (h ++ h') = accs id h ++ accs id h'.
  Proof. unfold accs. apply flat_map_app. Qed.

  Lemma open_lt (h : history) id t o : open h id t o -> id < length h.
  Proof. intros [H _]. apply nth_error_Some. congruence. Qed.

  (** an open call after one more event *)
  Lemma open_snoc (h : history) e id t o :
    id < length h -> is_end id e = false -> (open (h ++ [e]) id t o <-> open h id t o).
  Proof.
    intros Hl He. unfold open. rewrite nth_error_app1, existsb_app by assumption. simpl. rewrite He, !orb_false_r.
    reflexivity.
  Qed.

  Lemma end_in (h : history) id : existsb (is_end id) h = true -> exists t, (exists r, In (ERet id t r) h) \/ (exists m, In (EPan id t m) h).
  Proof.
    intros H. apply existsb_exists in H. destruct H as (e & Hin & He).
    destruct e as [ |j t r|j t m| | | ]; try discriminate; apply Nat.eqb_eq in He; subst j; exists t; [left|right]; eauto.
  Qed.
End Lists.

Section Sound.
  Context {V : Type} (E : env V) (ro nl : bool) (EOK : env_ok E).
  Context (l0 : list V) (c0 m0 : nat).
  Notation Inv := (Inv E ro).
  Notation good := (good E ro).
  Notation wp := (wp E ro nl).
  Notation shared := (shared V).
  Notation acc := (acc V).
  Notation history := (list (event V)).
  Notation wpost := (wpost E).
  Notation wpan := (wpan E).
  Implicit Types (s : shared) (g : nat -> gst V) (L : list (tok V)) (h : history) (c : cfg V) (a : abs V).

  Definition a0 : abs V := abs0 l0 m0.

  (** ** what stays true between two states if no clear happened in between *)
  Record mono (s s' : shared) : Prop := MkMono {
    mo_resv : resv s <= resv s';
    mo_wrtn : wrtn s <= wrtn s';
    mo_cap : cap s <= cap s';
    mo_max : maxc s <= maxc s';
    mo_fill : forall i, filledp s i -> filledp s' i
  }.
  Lemma mono_refl s : mono s s.
  Proof. constructor; auto. Qed.
  Lemma mono_trans s1 s2 s3 : mono s1 s2 -> mono s2 s3 -> mono s1 s3.
  Proof. intros [] []; constructor; try lia; auto. Qed.
  Lemma le_mono s s' : le s s' -> mono s s'.
  Proof. intros []; constructor; auto. lia. Qed.

  Record agree s a : Prop := MkAgree {
    ag_len : resv s = a_len a;
    ag_max : maxc s = a_max a;
    ag_val : forall i, cell s i = value a i
  }.

  (** ** events and snapshots: [snap k] is the state before the [k]-th event *)
  Definition evok (snap : nat -> shared) h e : Prop :=
    let s := snap (length h) in
    well_formed h e /\ good s /\ agree s (replay a0 h) /\ legal (replay a0 h) e /\
    match e with
    | EInv _ _ o => (forall gr, needs o = Some gr -> grant_ok s gr) /\ allowed E ro nl o
    | ERet id t r => exists o, open h id t o /\ post E o r (accs id h) (snap id) s /\ Forall (grant_ok s) (grants r)
    | EPan id t m => exists o, open h id t o /\ pan E o m (accs id h) (snap id) s
    | EAcc _ _ (AcSt i x) => i < cap s /\ sst (slots s i) = x
    | EAcc _ _ (AcCap n) => cap s = n
    | _ => True
    end.

  Record explained (snap : nat -> shared) h : Prop := MkExpl {
    x_ev : each (evok snap) h;
    x_last : good (snap (length h)) /\ agree (snap (length h)) (replay a0 h);
    x_mono : forall h1 h2 h3, h = h1 ++ h2 ++ h3 -> ~ In EClear h2 ->
             mono (snap (length h1)) (snap (length (h1 ++ h2)));
    x_first : length l0 <= wrtn (snap 0)
  }.

  Definition repl (snap : nat -> shared) (n : nat) s : nat -> shared := fun k => if k <? n then snap k else s.
  Definition ext (snap : nat -> shared) (n : nat) s : nat -> shared := fun k => if k <=? n then snap k else s.

  Lemma evok_ext snap snap' h e : (forall k, k <= length h -> snap k = snap' k) -> evok snap h e -> evok snap' h e.
  Proof.
    intros H. unfold evok. rewrite <- (H (length h)) by lia.
    intros (W & G & A & Lg & X). split; [exact W|]. split; [exact G|]. split; [exact A|]. split; [exact Lg|].
    destruct e as [ |id t r|id t m| | | ]; auto; destruct X as (o & O & X); exists o; (split; [exact O|]);
      pose proof (open_lt _ _ _ _ O); rewrite <- (H id) by lia; exact X.
  Qed.

  Lemma expl_silent snap h s : good s -> agree s (replay a0 h) -> mono (snap (length h)) s ->
    explained snap h -> explained (repl snap (length h) s) h.
  Proof.
    intros G A M [X1 X2 X3 X4]. constructor; [| | |unfold repl; destruct (Nat.ltb_spec 0 (length h)) as [_|L]; [assumption|];
      replace (length h) with 0 in M by lia; apply mo_wrtn in M; lia].
    - eapply each_mono; [|exact X1]. intros h1 e h2 -> Hev. eapply evok_ext; [|exact Hev].
      intros k Hk. unfold repl. rewrite app_length. simpl. destruct (Nat.ltb_spec k (length h1 + S (length h2))); [reflexivity|lia].
    - unfold repl. destruct (Nat.ltb_spec (length h) (length h)); [lia|auto].
    - intros h1 h2 h3 Hh Hc. specialize (X3 h1 h2 h3 Hh Hc). unfold repl.
      assert (length h = length h1 + length h2 + length h3) by (rewrite Hh, !app_length; lia).
      rewrite app_length in *.
      destruct (Nat.ltb_spec (length h1) (length h)), (Nat.ltb_spec (length h1 + length h2) (length h)); auto.
      + replace (length h1 + length h2) with (length h) in X3 by lia. eapply mono_trans; eauto.
      + lia.
      + apply mono_refl.
  Qed.

  Lemma expl_snoc snap h e s : evok snap h e -> good s -> agree s (replay a0 (h ++ [e])) ->
    (e <> EClear -> mono (snap (length h)) s) ->
    explained snap h -> explained (ext snap (length h) s) (h ++ [e]).
  Proof.
    intros He G A M [X1 X2 X3 X4]. constructor; [| | |exact X4].
    - apply each_snoc.
      + eapply each_mono; [|exact X1]. intros h1 e1 h2 -> Hev. eapply evok_ext; [|exact Hev].
        intros k Hk. unfold ext. rewrite app_length. simpl. destruct (Nat.leb_spec k (length h1 + S (length h2))); [reflexivity|lia].
      + eapply evok_ext; [|exact He]. intros k Hk. unfold ext. destruct (Nat.leb_spec k (length h)); [reflexivity|lia].
    - unfold ext. rewrite app_length. simpl. destruct (Nat.leb_spec (length h + 1) (length h)); [lia|auto].
    - intros h1 h2 h3 Hh Hc.
      assert (Hlen : length h + 1 = length h1 + length h2 + length h3).
      { apply (f_equal (@length _)) in Hh. rewrite !app_length in Hh. simpl in Hh. lia. }
      destruct h3 as [|e3 h3 _] using rev_ind.
      + rewrite app_nil_r in Hh. destruct h2 as [|e2 h2 _] using rev_ind.
        * rewrite app_nil_r. apply mono_refl.
        * rewrite app_assoc in Hh. apply app_inj_tail in Hh. destruct Hh as [Hh <-].
          assert (Hc' : ~ In EClear h2 /\ e <> EClear).
          { split; intros Y; apply Hc; rewrite in_app_iff; simpl; auto. }
          destruct Hc' as [Hc1 Hc2]. specialize (X3 h1 h2 [] ltac:(now rewrite app_nil_r) Hc1).
          rewrite <- Hh in X3. simpl in Hlen. unfold ext.
          rewrite app_length in Hlen. simpl in Hlen. rewrite !app_length. simpl.
          destruct (Nat.leb_spec (length h1) (length h)), (Nat.leb_spec (length h1 + (length h2 + 1)) (length h)); try lia.
          eapply mono_trans; eauto.
      + rewrite 2 app_assoc in Hh. apply app_inj_tail in Hh. destruct Hh as [Hh _]. rewrite <- app_assoc in Hh.
        specialize (X3 h1 h2 h3 Hh Hc). rewrite app_length in Hlen. simpl in Hlen. rewrite app_length in *. unfold ext.
        destruct (Nat.leb_spec (length h1) (length h)), (Nat.leb_spec (length h1 + length h2) (length h)); try lia. exact X3.
  Qed.

  (** ** ghost status and status in the abstract vector *)
  Definition res_by (t : nat) (x : gst V) : Prop := x = GPend t \/ x = GInit t \/ exists v, x = GIniD t v.
  Definition same_phase (x y : gst V) : Prop :=
    (x = GFree <-> y = GFree) /\ (x = GDead <-> y = GDead) /\ (full x <-> full y) /\
    forall u, res_by u x <-> res_by u y.

  Lemma gst_cases (x : gst V) : x = GFree \/ x = GDead \/ full x \/ exists u, res_by u x.
  Proof. unfold res_by. destruct x; simpl; eauto 10. Qed.
  Lemma res_by_own u (x : gst V) : res_by u x -> own u x = Some x.
  Proof. intros [->|[->|(v & ->)]]; unfold own; simpl; now rewrite Nat.eqb_refl. Qed.
  Lemma res_by_det u u' (x : gst V) : res_by u x -> res_by u' x -> u = u'.
  Proof. intros H1 H2. apply res_by_own, own_some in H1. apply res_by_own, own_some in H2. destruct H1, H2. congruence. Qed.
  Lemma res_by_not u (x : gst V) : res_by u x -> x <> GFree /\ x <> GDead /\ ~ full x.
  Proof. intros [->|[->|(v & ->)]]; repeat split; try discriminate; simpl; tauto. Qed.

  Lemma guar_res t s g s' g' i u : guar t s g s' g' -> u <> t -> (res_by u (g i) <-> res_by u (g' i)).
  Proof.
    intros G N. pose proof (gu_own _ _ _ _ _ G u i N) as O. split; intros H.
    - pose proof (res_by_own _ _ H) as X. rewrite X in O. apply own_some in O. destruct O as [O _]. now rewrite <- O.
    - pose proof (res_by_own _ _ H) as X. rewrite X in O. symmetry in O. apply own_some in O. destruct O as [O _]. now rewrite <- O.
  Qed.

  Lemma cell_full s g i : Inv s g -> (cell s i <> None <-> full (g i)).
  Proof.
    intros I. rewrite (full_filled _ _ _ _ _ I). unfold filledp, cell.
    destruct (Nat.ltb_spec i (cap s)); [|split; [congruence|lia]].
    pose proof (i_slot _ _ _ _ I i) as S.
    destruct (sst (slots s i)) eqn:X; (split; [intros H1; split; [assumption|congruence]|intros [_ H1]]); try congruence;
      destruct (g i) as [| | | | | |u [| |]]; simpl in S;
      try (rewrite (S H) in X; discriminate); try (destruct S as [_ S]; rewrite S in X; discriminate); intuition congruence.
  Qed.

  Lemma same_from t s g s' g' i : Inv s g -> Inv s' g' -> guar t s g s' g' ->
    (resv s <= i <-> resv s' <= i) -> (cell s i = None <-> cell s' i = None) -> same_phase (g i) (g' i).
  Proof.
    intros I I' G R C. assert (F : g i = GFree <-> g' i = GFree).
    { rewrite (i_free _ _ _ _ I i), (i_free _ _ _ _ I' i). exact R. }
    assert (U : full (g i) <-> full (g' i)).
    { rewrite <- (cell_full _ _ _ I), <- (cell_full _ _ _ I'). tauto. }
    pose proof (gu_dead _ _ _ _ _ G i) as D.
    split; [exact F|]. split; [exact D|]. split; [exact U|].
    intros u. destruct (Nat.eq_dec u t) as [->|N]; [|now apply (guar_res t s g s' g')].
    split; intros H.
    - destruct (res_by_not _ _ H) as (H1 & H2 & H3).
      destruct (gst_cases (g' i)) as [X|[X|[X|(u & X)]]]; try tauto.
      destruct (Nat.eq_dec u t) as [->|N]; [assumption|].
      apply (guar_res t s g s' g' i u G N) in X. now apply (res_by_det _ _ _ H) in X; subst.
    - destruct (res_by_not _ _ H) as (H1 & H2 & H3).
      destruct (gst_cases (g i)) as [X|[X|[X|(u & X)]]]; try tauto.
      destruct (Nat.eq_dec u t) as [->|N]; [assumption|].
      apply (guar_res t s g s' g' i u G N) in X. now apply (res_by_det _ _ _ H) in X; subst.
  Qed.

  Definition pmatch (r : list (nat * call V)) (p : pos V) (x : gst V) : Prop :=
    match p with
    | Unreserved => x = GFree
    | Abandoned => x = GDead
    | Has _ => full x
    | Reserved id => exists t y, lookup t r = Some y /\ c_id y = id /\ res_by t x
    end.

  Lemma pmatch_same r p x y : same_phase x y -> pmatch r p x -> pmatch r p y.
  Proof.
    intros (H1 & H2 & H3 & H4). destruct p; simpl; try tauto.
    intros (t & z & Hz & Hi & Hr). exists t, z. rewrite <- H4. auto.
  Qed.

  Lemma pmatch_run r r' p x :
    (forall t y, lookup t r = Some y -> exists y', lookup t r' = Some y' /\ c_id y' = c_id y) -> pmatch r p x -> pmatch r' p x.
  Proof.
    intros H. destruct p; simpl; auto. intros (t & y & H1 & H2 & H3). destruct (H t y H1) as (y' & H4 & H5).
    exists t, y'. split; [assumption|]. split; [congruence|assumption].
  Qed.

  (** ** run lists *)
  Lemma lookup_remove_same t (r : list (nat * call V)) : NoDup (map fst r) -> lookup t (remove t r) = None.
  Proof.
    induction r as [|[u x] r IH]; simpl; intros N; [reflexivity|]. inversion N as [|? ? Hn Hr]; subst.
    destruct (Nat.eqb_spec t u) as [->|Hu].
    - clear - Hn. induction r as [|[v y] r IH]; simpl in *; [reflexivity|].
      destruct (Nat.eqb_spec u v) as [->|]; [exfalso; auto|]. apply IH. tauto.
    - simpl. destruct (Nat.eqb_spec t u); [contradiction|]. auto.
  Qed.
  Lemma lookup_remove_other t u (r : list (nat * call V)) : u <> t -> lookup u (remove t r) = lookup u r.
  Proof.
    intros H. induction r as [|[v x] r IH]; simpl; [reflexivity|].
    destruct (Nat.eqb_spec t v) as [->|Hv]; simpl.
    - destruct (Nat.eqb_spec u v); [contradiction|reflexivity].
    - now rewrite IH.
  Qed.
  Lemma remove_incl t u (r : list (nat * call V)) : In u (map fst (remove t r)) -> In u (map fst r).
  Proof.
    induction r as [|[v x] r IH]; simpl; [auto|]. destruct (Nat.eqb_spec t v); simpl; tauto.
  Qed.
  Lemma remove_nodup t (r : list (nat * call V)) : NoDup (map fst r) -> NoDup (map fst (remove t r)).
  Proof.
    induction r as [|[v x] r IH]; simpl; intros N; [constructor|]. inversion N; subst.
    destruct (Nat.eqb_spec t v); simpl; [assumption|]. constructor; auto. intros H. now apply remove_incl in H.
  Qed.
  Lemma lookup_none t (r : list (nat * call V)) : lookup t r = None -> ~ In t (map fst r).
  Proof.
    induction r as [|[v x] r IH]; simpl; [tauto|]. destruct (Nat.eqb_spec t v); [discriminate|]. intros H [X|X]; [congruence|].
    now apply IH.
  Qed.
  Lemma remove_notin t (r : list (nat * call V)) : NoDup (map fst r) -> ~ In t (map fst (remove t r)).
  Proof. intros N. apply lookup_none. now apply lookup_remove_same. Qed.

  (** ** The invariant of the machine *)
  Record GI c (snap : nat -> shared) g : Prop := MkGI {
    gi_inv : Inv (sh c) g;
    gi_snap : snap (length (hist c)) = sh c;
    gi_expl : explained snap (hist c);
    gi_pos : forall i, pmatch (run c) (a_pos (replay a0 (hist c)) i) (g i);
    gi_run : forall t x, lookup t (run c) = Some x ->
        open (hist c) (c_id x) t (c_op x) /\
        exists L s0, view (sh c) g t L /\ le s0 (sh c) /\
                     wp t (wpost (c_op x) (snap (c_id x))) (wpan (c_op x) (snap (c_id x)))
                        (c_prog x) L (accs (c_id x) (hist c)) s0;
    gi_idle : forall t, lookup t (run c) = None -> view (sh c) g t [];
    gi_open : forall id t o, open (hist c) id t o -> exists x, lookup t (run c) = Some x /\ c_id x = id;
    gi_nodup : NoDup (map fst (run c));
    gi_given : Forall (grant_ok (sh c)) (given c)
  }.

  Lemma gi_agree c snap g : GI c snap g -> agree (sh c) (replay a0 (hist c)).
  Proof. intros G. rewrite <- (gi_snap _ _ _ G). apply (x_last _ _ (gi_expl _ _ _ G)). Qed.
  Lemma gi_good c snap g : GI c snap g -> good (sh c).
  Proof. intros G. exists g. apply G. Qed.

  (** ** the start *)
  Lemma start_inv (H1 : capok E c0 m0) (H2 : length l0 <= c0) (H3 : length l0 < wmod E) :
    Inv (init l0 c0 m0) (fun i => if i <? length l0 then GFull else GFree).
  Proof.
    constructor; simpl; rewrite ?map_length; auto.
    - intros i. unfold slot_ok. simpl. rewrite nth_error_map.
      destruct (Nat.ltb_spec i (length l0)).
      + destruct (nth_error l0 i) eqn:X; [|apply nth_error_None in X; lia]. simpl. repeat split; try discriminate; [lia|].
        right. reflexivity.
      + apply nth_error_None in H. rewrite H. reflexivity.
    - intros i. destruct (Nat.ltb_spec i (length l0)); split; intros; try discriminate; try lia; auto.
    - intros i Hi. destruct (Nat.ltb_spec i (length l0)); [exact Logic.I|lia].
    - discriminate.
  Qed.

  Lemma start_agree (H2 : length l0 <= c0) : agree (init l0 c0 m0) a0.
  Proof.
    constructor; simpl; rewrite ?map_length; auto. intros i. unfold cell, value. simpl. rewrite nth_error_map.
    destruct (nth_error l0 i) eqn:X; simpl.
    - destruct (Nat.ltb_spec i c0); [reflexivity|]. assert (nth_error l0 i <> None) as Y by congruence.
      apply nth_error_Some in Y. lia.
    - now destruct (i <? c0).
  Qed.

  Lemma start_view t : view (init l0 c0 m0) (fun i => if i <? length l0 then GFull else GFree) t [].
  Proof.
    constructor; simpl; auto; [|discriminate]. intros i. destruct (i <? length l0); reflexivity.
  Qed.

  Lemma start_GI (H1 : capok E c0 m0) (H2 : length l0 <= c0) (H3 : length l0 < wmod E) :
    GI (start l0 c0 m0) (fun _ => init l0 c0 m0) (fun i => if i <? length l0 then GFull else GFree).
  Proof.
    constructor; simpl; auto; try discriminate.
    - now apply start_inv.
    - constructor; [| | |simpl; now rewrite map_length].
      + apply each_nil.
      + split; [eexists; now apply start_inv|now apply start_agree].
      + intros. apply mono_refl.
    - intros i. destruct (Nat.ltb_spec i (length l0)) as [X|X].
      + destruct (nth_error l0 i) eqn:Y; [exact Logic.I|]. apply nth_error_None in Y. lia.
      + apply nth_error_None in X. rewrite X. reflexivity.
    - intros t _. apply start_view.
    - intros id t o [H _]. destruct id; discriminate.
    - constructor.
  Qed.

  (** ** steps *)

  Lemma accs_fresh snap h : explained snap h -> accs (length h) h = [].
  Proof.
    intros X. assert (Z : forall h1 h2, h = h1 ++ h2 -> accs (length h) h1 = []).
    { induction h1 as [|e h1 IH] using rev_ind; intros h2 Hh; [reflexivity|]. rewrite <- app_assoc in Hh. simpl in Hh.
      rewrite accs_app, (IH _ Hh). pose proof (x_ev _ _ X _ _ _ Hh) as (W & _).
      destruct e; simpl; try reflexivity. destruct W as (o & O). pose proof (open_lt _ _ _ _ O).
      destruct (Nat.eqb_spec id (length h)) as [->|]; [|reflexivity].
      rewrite Hh, app_length in H. lia. }
    apply (Z h []). now rewrite app_nil_r.
  Qed.
  Lemma end_fresh snap h : explained snap h -> existsb (is_end (length h)) h = false.
  Proof.
    intros X. destruct (existsb (is_end (length h)) h) eqn:Y; [|reflexivity]. exfalso.
    assert (Z : forall e, In e h -> is_end (length h) e = false).
    { intros e He. apply in_split in He. destruct He as (h1 & h2 & ->). pose proof (x_ev _ _ X _ _ _ eq_refl) as (W & _).
      destruct e; simpl in *; try reflexivity; destruct W as (o & O); apply open_lt in O; rewrite app_length;
      apply Nat.eqb_neq; lia. }
    apply existsb_exists in Y. destruct Y as (e & H1 & H2). rewrite (Z e H1) in H2. discriminate.
  Qed.

  Lemma grant_mono s s' x : mono s s' -> grant_ok s x -> grant_ok s' x.
  Proof.
    intros H. destruct x as [i|x|i]; simpl; try apply (mo_fill _ _ H).
    intros (H0 & H1 & H2). split; [pose proof (mo_wrtn _ _ H); lia|]. split; [pose proof (mo_cap _ _ H); lia|]. intros i Hi. apply (mo_fill _ _ H). auto.
  Qed.

  Lemma grant_eqb_eq x y : grant_eqb x y = true -> x = y.
  Proof.
    destruct x as [i|[a n]|i], y as [j|[b m]|j]; simpl; try discriminate;
      rewrite ?andb_true_iff, ?Nat.eqb_eq; intros; intuition congruence.
  Qed.

  (** a call starts *)
  Lemma step_inv_GI c snap g t o c' :
    GI c snap g -> allowed E ro nl o -> step E c (LInv t o) = Next c' ->
    exists snap', GI c' snap' g.
  Proof.
    intros G A H. simpl in H. destruct (lookup t (run c)) eqn:Lk; [discriminate|].
    destruct (has_grant o (given c)) eqn:Hg; [|discriminate]. injection H as <-.
    pose proof (gi_expl _ _ _ G) as X. pose proof (gi_snap _ _ _ G) as Sn.
    set (n := length (hist c)) in *.
    assert (GR : forall gr, needs o = Some gr -> grant_ok (sh c) gr).
    { intros gr Hn. unfold has_grant in Hg. rewrite Hn in Hg. apply existsb_exists in Hg.
      destruct Hg as (y & Hy & He). apply grant_eqb_eq in He. subst y.
      pose proof (gi_given _ _ _ G) as F. rewrite Forall_forall in F. auto. }
    assert (NoO : forall id' o', ~ open (hist c) id' t o').
    { intros id' o' O. destruct (gi_open _ _ _ G _ _ _ O) as (x & Hx & _). congruence. }
    assert (EV : evok snap (hist c) (EInv n t o)).
    { unfold evok. fold n. rewrite Sn. split; [split; [reflexivity|exact NoO]|].
      split; [eapply gi_good; eauto|]. split; [eapply gi_agree; eauto|]. split; [exact Logic.I|]. split; assumption. }
    exists (ext snap n (sh c)).
    assert (X' : explained (ext snap n (sh c)) (hist c ++ [EInv n t o])).
    { apply expl_snoc; auto.
      - eapply gi_good; eauto.
      - rewrite replay_snoc. simpl. eapply gi_agree; eauto.
      - fold n. rewrite Sn. intros _. apply mono_refl. }
    assert (OS : forall id u o', id < n -> (open (hist c ++ [EInv n t o]) id u o' <-> open (hist c) id u o')).
    { intros id u o' Hid. apply open_snoc; [assumption|reflexivity]. }
    constructor; simpl.
    - apply G.
    - unfold ext. rewrite app_length. simpl. destruct (Nat.leb_spec (length (hist c) + 1) n); [unfold n in *; lia|reflexivity].
    - exact X'.
    - intros i. rewrite replay_snoc. simpl. eapply pmatch_run; [|apply (gi_pos _ _ _ G)].
      intros u y Hy. simpl. destruct (Nat.eqb_spec u t) as [->|]; [congruence|]. eauto.
    - intros u x. destruct (Nat.eqb_spec u t) as [->|Hu].
      + intros [= <-]. simpl. split.
        * split.
          -- unfold n. rewrite nth_error_app2, Nat.sub_diag by lia. reflexivity.
          -- rewrite existsb_app. simpl. rewrite orb_false_r. unfold n. now apply (end_fresh snap).
        * exists [], (sh c). split; [now apply (gi_idle _ _ _ G)|]. split; [apply le_refl|].
          rewrite accs_app. change (accs n (hist c)) with (accs (length (hist c)) (hist c)).
          rewrite (accs_fresh snap) by assumption. simpl.
          unfold ext. rewrite Nat.leb_refl, Sn. apply op_wp; auto. eapply gi_good; eauto.
      + intros Hx. destruct (gi_run _ _ _ G u x Hx) as (O & L & s0 & Vw & Le & W).
        pose proof (open_lt _ _ _ _ O) as Hid. fold n in Hid. split.
        * now apply OS.
        * exists L, s0. split; [assumption|]. split; [assumption|].
          rewrite accs_app. simpl. rewrite app_nil_r. unfold ext.
          destruct (Nat.leb_spec (c_id x) n); [|lia]. exact W.
    - intros u. destruct (Nat.eqb_spec u t); [discriminate|]. apply (gi_idle _ _ _ G).
    - intros id u o' O. destruct (Nat.eq_dec id n) as [->|Hid].
      + destruct O as [O _]. unfold n in O. rewrite nth_error_app2, Nat.sub_diag in O by lia. simpl in O.
        injection O as <- <-. rewrite Nat.eqb_refl. eexists. split; [reflexivity|reflexivity].
      + assert (id < n). { pose proof (open_lt _ _ _ _ O) as Hl. rewrite app_length in Hl. simpl in Hl. unfold n in *. lia. }
        apply OS in O; [|assumption]. destruct (gi_open _ _ _ G _ _ _ O) as (x & Hx & Hi). exists x.
        destruct (Nat.eqb_spec u t) as [->|]; [congruence|]. auto.
    - constructor; [now apply lookup_none|apply G].
    - apply G.
  Qed.

  (** a thread makes an atomic access *)
  Lemma has_full a s g r i : Inv s g -> pmatch r (a_pos a i) (g i) -> agree s a ->
    (full (g i) <-> exists v, a_pos a i = Has v).
  Proof.
    intros I P A. rewrite <- (cell_full _ _ _ I), (ag_val _ _ A). unfold value.
    destruct (a_pos a i); simpl; split; try congruence; try (intros [v Hv]; discriminate). intros _. eauto.
  Qed.
  Lemma val_has a i v : value a i = Some v <-> a_pos a i = Has v.
  Proof. unfold value. destruct (a_pos a i); simpl; split; congruence. Qed.
  Lemma val_none a i : value a i = None <-> forall v, a_pos a i <> Has v.
  Proof.
    unfold value. destruct (a_pos a i); simpl; split; try congruence; try discriminate.
    intros H. exfalso. now apply (H v).
  Qed.

  Lemma sst_cell s g i : Inv s g -> i < cap s -> (cell s i = None <-> sst (slots s i) = NONE).
  Proof.
    intros I Hi. pose proof (cell_full s g i I) as C. pose proof (full_filled _ _ _ _ i I) as F. unfold filledp in F.
    destruct (cell s i) eqn:X.
    - split; [discriminate|]. intros Y. exfalso. assert (full (g i)) as Z by (apply C; discriminate). apply F in Z. tauto.
    - split; [|auto]. intros _. destruct (sst (slots s i)) eqn:Y; auto; exfalso; apply C; auto; apply F;
        (split; [assumption|congruence]).
  Qed.

  Lemma res_pos r a s g i t x : Inv s g -> agree s a -> pmatch r (a_pos a i) (g i) ->
    res_by t (g i) -> lookup t r = Some x -> a_pos a i = Reserved (c_id x).
  Proof.
    intros I A P R Lk. destruct (res_by_not _ _ R) as (R1 & R2 & R3).
    destruct (a_pos a i); simpl in P; try contradiction.
    destruct P as (u & y & H1 & H2 & H3). pose proof (res_by_det _ _ _ R H3). subst u. congruence.
  Qed.

  Lemma init_res t s g s' g' i v : Inv s g -> Inv s' g' -> guar t s g s' g' ->
    resv s' = resv s -> cell s i = None -> cell s' i = Some v -> res_by t (g i).
  Proof.
    intros I I' G R C C'.
    assert (F : ~ full (g i)) by (rewrite <- (cell_full _ _ _ I); congruence).
    assert (F' : full (g' i)) by (rewrite <- (cell_full _ _ _ I'); congruence).
    destruct (gst_cases (g i)) as [X|[X|[X|(u & X)]]]; try contradiction.
    - exfalso. apply (i_free _ _ _ _ I) in X. rewrite <- R in X. apply (i_free _ _ _ _ I') in X. rewrite X in F'. destruct F'.
    - exfalso. apply (gu_dead _ _ _ _ _ G) in X. rewrite X in F'. destruct F'.
    - destruct (Nat.eq_dec u t) as [->|N]; [assumption|]. apply (guar_res _ _ _ _ _ _ _ G N) in X.
      apply res_by_not in X. tauto.
  Qed.

  Lemma acc_legal c snap g t x s' g' y :
    GI c snap g -> lookup t (run c) = Some x -> Inv s' g' -> guar t (sh c) g s' g' -> accrel y (sh c) s' ->
    legal (replay a0 (hist c)) (EAcc (c_id x) t y).
  Proof.
    intros GIc Lk I' G A. pose proof (gi_inv _ _ _ GIc) as I. pose proof (gi_agree _ _ _ GIc) as AG.
    pose proof (gi_pos _ _ _ GIc) as P. destruct y as [b n|i v|i v|i old w|i j v w|i z|n|n]; simpl in A |- *.
    - rewrite <- (ag_len _ _ AG). tauto.
    - destruct A as (R & C & C'). assert (Ci : cell s' i = Some v) by (rewrite C', upd_same; reflexivity).
      eapply res_pos; eauto. eapply (init_res t (sh c) g s' g'); eauto.
    - apply val_has. rewrite <- (ag_val _ _ AG). tauto.
    - apply val_has. rewrite <- (ag_val _ _ AG). tauto.
    - rewrite <- !val_has, <- !(ag_val _ _ AG). tauto.
    - destruct A as (Hc & Hs & _). destruct z.
      + apply val_none. rewrite <- (ag_val _ _ AG). eapply sst_cell; eauto.
      + eapply has_full; eauto. apply (full_filled _ _ _ _ _ I). split; [assumption|congruence].
      + eapply has_full; eauto. apply (full_filled _ _ _ _ _ I). split; [assumption|congruence].
    - rewrite <- (ag_len _ _ AG). tauto.
    - destruct A as [<- _]. split.
      + rewrite <- (ag_max _ _ AG). apply (ok_le _ EOK). apply I.
      + intros i v Hv. apply val_has in Hv. rewrite <- (ag_val _ _ AG) in Hv. unfold cell in Hv.
        destruct (Nat.ltb_spec i (cap (sh c))); [assumption|discriminate].
  Qed.

  Lemma acc_agree a s s' id t y : agree s a -> maxc s' = maxc s -> accrel y s s' ->
    (forall b n i, y = AcAdd b n -> b <= i -> value a i = None) ->
    agree s' (apply a (EAcc id t y)).
  Proof.
    intros [A1 A2 A3] M A F. constructor.
    - destruct y; simpl in A |- *; unfold quiet in A; intuition (subst; congruence).
    - destruct y; simpl in A |- *; unfold quiet in A; intuition (subst; congruence).
    - intros k. destruct y as [b n|i v|i v|i old w|i j v w|i z|n|n]; simpl in A; unfold value; simpl.
      + destruct A as (R1 & R2 & C). rewrite (C k), A3. unfold in_range.
        destruct (Nat.leb_spec b k); simpl; [|reflexivity].
        destruct (Nat.ltb_spec k (b + n)); [|reflexivity]. simpl. eapply F; eauto.
      + destruct A as (_ & _ & C). rewrite C. unfold upd. destruct (k =? i); [reflexivity|]. apply A3.
      + destruct A as (_ & C & _). rewrite C. apply A3.
      + destruct A as (_ & _ & C). rewrite C. unfold upd. destruct (k =? i); [reflexivity|]. apply A3.
      + destruct A as (_ & _ & _ & _ & C). rewrite C. unfold upd. destruct (k =? j); [reflexivity|].
        destruct (k =? i); [reflexivity|]. apply A3.
      + destruct A as (_ & _ & ->). apply A3.
      + destruct A as (_ & ->). apply A3.
      + destruct A as (_ & ->). apply A3.
  Qed.

  Lemma acc_pos c snap g t x s' g' y r' :
    GI c snap g -> lookup t (run c) = Some x -> Inv s' g' -> guar t (sh c) g s' g' -> accrel y (sh c) s' ->
    (forall u z, lookup u (run c) = Some z -> exists z', lookup u r' = Some z' /\ c_id z' = c_id z) ->
    forall i, pmatch r' (a_pos (apply (replay a0 (hist c)) (EAcc (c_id x) t y)) i) (g' i).
  Proof.
    intros GIc Lk I' G A Hr k. pose proof (gi_inv _ _ _ GIc) as I. pose proof (gi_agree _ _ _ GIc) as AG.
    pose proof (gi_pos _ _ _ GIc) as P.
    assert (SP : same_phase (g k) (g' k) -> pmatch r' (a_pos (replay a0 (hist c)) k) (g' k)).
    { intros S. eapply pmatch_same; [exact S|]. eapply pmatch_run; [exact Hr|]. apply P. }
    destruct y as [b n|i v|i v|i old w|i j v w|i z|n|n]; simpl in A |- *.
    - destruct A as (R1 & R2 & C). unfold in_range.
      destruct (Nat.leb_spec b k) as [Hb|Hb]; simpl; [destruct (Nat.ltb_spec k (b + n)) as [Hn|Hn]|].
      + simpl. destruct (Hr _ _ Lk) as (x' & Hx' & Hid). exists t, x'. split; [assumption|]. split; [assumption|].
        assert (Fr : g k = GFree) by (apply (i_free _ _ _ _ I); lia).
        destruct (gst_cases (g' k)) as [X|[X|[X|(u & X)]]].
        * apply (i_free _ _ _ _ I') in X. lia.
        * apply (gu_dead _ _ _ _ _ G) in X. congruence.
        * apply (cell_full _ _ _ I') in X. rewrite (C k) in X. apply (cell_full _ _ _ I) in X. rewrite Fr in X. destruct X.
        * destruct (Nat.eq_dec u t) as [->|N]; [assumption|]. apply (guar_res _ _ _ _ _ _ _ G N) in X.
          apply res_by_not in X. tauto.
      + apply SP. eapply same_from; eauto; [lia|]. rewrite (C k). tauto.
      + apply SP. eapply same_from; eauto; [lia|]. rewrite (C k). tauto.
    - destruct A as (R & C & C'). unfold upd. destruct (Nat.eqb_spec k i) as [Ek|N].
      + simpl. rewrite <- (cell_full _ _ _ I'), C'. rewrite Ek, upd_same. discriminate.
      + apply SP. eapply same_from; eauto; [lia|]. rewrite C', upd_other by assumption. tauto.
    - apply SP. destruct A as (_ & C & R). eapply same_from; eauto; [lia|]. rewrite (C k). tauto.
    - destruct A as (R & C & C'). unfold upd. destruct (Nat.eqb_spec k i) as [Ek|N].
      + simpl. rewrite <- (cell_full _ _ _ I'), C'. rewrite Ek, upd_same. discriminate.
      + apply SP. eapply same_from; eauto; [lia|]. rewrite C', upd_other by assumption. tauto.
    - destruct A as (R & Nij & C1 & C2 & C'). unfold upd. destruct (Nat.eqb_spec k j) as [Ek|N].
      + simpl. rewrite <- (cell_full _ _ _ I'), C'. rewrite Ek, upd_same. discriminate.
      + destruct (Nat.eqb_spec k i) as [Ei|Ni].
        * simpl. rewrite <- (cell_full _ _ _ I'), C'. rewrite upd_other by assumption. rewrite Ei, upd_same. discriminate.
        * apply SP. eapply same_from; eauto; [lia|]. rewrite C', !upd_other by assumption. tauto.
    - apply SP. destruct A as (_ & _ & ->). eapply same_from; eauto; tauto.
    - apply SP. destruct A as (_ & ->). eapply same_from; eauto; tauto.
    - apply SP. destruct A as (_ & ->). eapply same_from; eauto; tauto.
  Qed.

  Lemma after_lookup t c x p s l u :
    lookup t (run c) = Some x ->
    lookup u (run (after t c x p s l)) = if u =? t then Some (Call (c_id x) (c_op x) p) else lookup u (run c).
  Proof.
    intros H. simpl. destruct (Nat.eqb_spec u t) as [->|N]; [reflexivity|]. now apply lookup_remove_other.
  Qed.

  Lemma step_acc_GI c snap g t x p s' g' l L' :
    GI c snap g -> lookup t (run c) = Some x ->
    Inv s' g' -> view s' g' t L' -> guar t (sh c) g s' g' -> logrel l (sh c) s' ->
    wp t (wpost (c_op x) (snap (c_id x))) (wpan (c_op x) (snap (c_id x))) p L' (accs (c_id x) (hist c) ++ l) s' ->
    exists snap', GI (after t c x p s' l) snap' g'.
  Proof.
    intros GIc Lk I' Vw' G Lg W.
    pose proof (gi_inv _ _ _ GIc) as I. pose proof (gi_agree _ _ _ GIc) as AG.
    pose proof (gi_pos _ _ _ GIc) as P. pose proof (gi_expl _ _ _ GIc) as X. pose proof (gi_snap _ _ _ GIc) as Sn.
    pose proof (gu_le _ _ _ _ _ G) as LE.
    set (n := length (hist c)) in *.
    assert (Hids : forall u z, lookup u (run c) = Some z -> c_id z < n).
    { intros u z Hz. destruct (gi_run _ _ _ GIc u z Hz) as (O & _). now apply open_lt in O. }
    assert (Hr : forall u z, lookup u (run c) = Some z -> exists z', lookup u (run (after t c x p s' l)) = Some z' /\ c_id z' = c_id z).
    { intros u z Hz. rewrite after_lookup by assumption. destruct (Nat.eqb_spec u t) as [->|]; [|eauto].
      eexists. split; [reflexivity|]. simpl. congruence. }
    assert (ND : NoDup (map fst (run (after t c x p s' l)))).
    { simpl. constructor; [apply remove_notin|apply remove_nodup]; apply (gi_nodup _ _ _ GIc). }
    assert (GV : Forall (grant_ok s') (given c)).
    { eapply Forall_impl; [|apply (gi_given _ _ _ GIc)]. intros gr. apply grant_mono. now apply le_mono. }
    assert (ID : forall u, lookup u (run (after t c x p s' l)) = None -> view s' g' u []).
    { intros u. rewrite after_lookup by assumption. destruct (Nat.eqb_spec u t) as [->|Hu]; [discriminate|].
      intros Hn. eapply view_guar; eauto. now apply (gi_idle _ _ _ GIc). }
    destruct l as [|y [|? ?]]; simpl in Lg; [| |contradiction].
    - (* silent *)
      destruct Lg as [C R].
      assert (AG' : agree s' (replay a0 (hist c))).
      { destruct AG as [A1 A2 A3]. constructor; [congruence|rewrite (le_max _ _ LE); assumption|]. intros i. rewrite (C i). apply A3. }
      exists (repl snap n s'). unfold after in *. simpl in *. rewrite app_nil_r in *. constructor; simpl.
      + exact I'.
      + unfold repl. destruct (Nat.ltb_spec (length (hist c)) n); [unfold n in *; lia|reflexivity].
      + apply expl_silent; auto; [now exists g'|]. fold n. rewrite Sn. now apply le_mono.
      + intros i. eapply pmatch_same; [|eapply pmatch_run; [exact Hr|apply P]].
        eapply same_from; eauto; [lia|]. rewrite (C i). tauto.
      + intros u z Hz. destruct (Nat.eqb_spec u t) as [->|Hu].
        * injection Hz as <-. simpl. destruct (gi_run _ _ _ GIc t x Lk) as (O & _). split; [exact O|].
          exists L', s'. split; [assumption|]. split; [apply le_refl|]. unfold repl.
          pose proof (Hids _ _ Lk). destruct (Nat.ltb_spec (c_id x) n); [|lia].
          exact W.
        * rewrite lookup_remove_other in Hz by assumption.
          destruct (gi_run _ _ _ GIc u z Hz) as (O & L & s0 & Vw & Le & Wu). split; [exact O|].
          exists L, s0. split; [eapply view_guar; eauto|]. split; [eapply le_trans; eauto|]. unfold repl.
          pose proof (Hids _ _ Hz). destruct (Nat.ltb_spec (c_id z) n); [|lia]. exact Wu.
      + exact ID.
      + intros id u o O. destruct (gi_open _ _ _ GIc _ _ _ O) as (z & Hz & Hi).
        destruct (Hr u z Hz) as (z' & H1 & H2). exists z'. split; [exact H1|congruence].
      + exact ND.
      + exact GV.
    - (* an access *)
      set (e := EAcc (c_id x) t y).
      destruct (gi_run _ _ _ GIc t x Lk) as (Ox & _).
      assert (Fre : forall b n i, y = AcAdd b n -> b <= i -> value (replay a0 (hist c)) i = None).
      { intros b k i -> Hb. simpl in Lg. destruct Lg as (R & _). rewrite <- (ag_val _ _ AG).
        destruct (cell (sh c) i) eqn:Ci; [|reflexivity]. exfalso.
        assert (Y : full (g i)) by (apply (cell_full _ _ _ I); congruence).
        assert (g i = GFree) as Z by (apply (i_free _ _ _ _ I); lia). rewrite Z in Y. destruct Y. }
      assert (EV : evok snap (hist c) e).
      { unfold evok. fold n. rewrite Sn. split; [exists (c_op x); exact Ox|]. split; [eapply gi_good; eauto|].
        split; [assumption|]. split; [apply (acc_legal c snap g t x s' g' y); auto|]. unfold e. clear - Lg. destruct y; simpl in Lg |- *; tauto. }
      assert (OS : forall id u o, open (hist c ++ [e]) id u o <-> open (hist c) id u o).
      { intros id u o. destruct (Nat.lt_ge_cases id n) as [Hid|Hid].
        - apply open_snoc; [assumption|reflexivity].
        - split; intros O.
          + pose proof (open_lt _ _ _ _ O) as Hl. rewrite app_length in Hl. simpl in Hl. assert (id = n) as -> by (unfold n in *; lia).
            destruct O as [O _]. unfold n in O. rewrite nth_error_app2, Nat.sub_diag in O by lia. discriminate.
          + apply open_lt in O. unfold n in *. lia. }
      exists (ext snap n s'). unfold after in *. simpl in *. constructor; simpl.
      + exact I'.
      + unfold ext. rewrite app_length. simpl. destruct (Nat.leb_spec (length (hist c) + 1) n); [unfold n in *; lia|reflexivity].
      + apply expl_snoc; auto.
        * now exists g'.
        * rewrite replay_snoc. eapply acc_agree; eauto. apply LE.
        * fold n. rewrite Sn. intros _. now apply le_mono.
      + intros i. rewrite replay_snoc. apply (acc_pos c snap g t x s' g' y); auto.
      + intros u z Hz. destruct (Nat.eqb_spec u t) as [->|Hu].
        * injection Hz as <-. simpl. split; [now apply OS|].
          exists L', s'. split; [assumption|]. split; [apply le_refl|]. unfold ext.
          pose proof (Hids _ _ Lk). destruct (Nat.leb_spec (c_id x) n); [|lia].
          rewrite accs_app. unfold e. simpl. rewrite Nat.eqb_refl. exact W.
        * rewrite lookup_remove_other in Hz by assumption.
          destruct (gi_run _ _ _ GIc u z Hz) as (O & L & s0 & Vw & Le & Wu). split; [now apply OS|].
          exists L, s0. split; [eapply view_guar; eauto|]. split; [eapply le_trans; eauto|]. unfold ext.
          pose proof (Hids _ _ Hz). destruct (Nat.leb_spec (c_id z) n); [|lia].
          rewrite accs_app. unfold e. simpl. destruct (Nat.eqb_spec (c_id x) (c_id z)) as [Eid|Nid].
          -- exfalso. destruct Ox as [O1 _], O as [O2 _]. rewrite Eid in O1. rewrite O1 in O2. congruence.
          -- rewrite app_nil_r. exact Wu.
      + exact ID.
      + intros id u o O. apply OS in O. destruct (gi_open _ _ _ GIc _ _ _ O) as (z & Hz & Hi).
        destruct (Hr u z Hz) as (z' & H1 & H2). exists z'. split; [exact H1|congruence].
      + exact ND.
      + exact GV.
  Qed.

  (** a later state at the return *)
  Lemma lenres_up n tr s1 s2 s3 : wrtn s2 <= wrtn s3 -> lenres n tr s1 s2 -> lenres n tr s1 s3.
  Proof. intros H [H1 H2]. split; [lia|assumption]. Qed.

  Lemma post_swap_mono i j r tr s1 s2 s3 : wrtn s2 <= wrtn s3 -> post_swap E i j r tr s1 s2 -> post_swap E i j r tr s1 s3.
  Proof.
    intros H [(v & w & H1 & H2 & H3 & H4 & H5)|(H1 & H2 & [(n & H3 & H4)|H3])].
    - left. exists v, w. repeat split; auto; lia.
    - right. split; [assumption|]. split; [assumption|]. left. exists n. split; [|assumption]. eapply lenres_up; eauto.
    - right. auto.
  Qed.

  Lemma post_mono o r tr s1 s2 s3 : wrtn s2 <= wrtn s3 -> post E o r tr s1 s2 -> post E o r tr s1 s3.
  Proof.
    intros H. pose proof (fun n => lenres_up n tr s1 s2 s3 H) as U.
    destruct o; simpl; try tauto; try (intros (n & X); exists n; intuition auto; fail).
    - intros (n & p & q & X). exists n, p, q. intuition auto.
    - now apply post_swap_mono.
    - destruct o; simpl; try tauto. intros [(H1 & H2 & H3)|H1]; [left|right; assumption].
      split; [assumption|]. split; [assumption|]. eapply post_swap_mono; eauto.
  Qed.

  Lemma grow_pan_mono n it b m tr s1 s2 s3 : cap s2 <= cap s3 -> grow_pan n it b m tr s1 s2 -> grow_pan n it b m tr s1 s3.
  Proof. intros H [X|[H1 X]]; [left; assumption|right]. split; [lia|assumption]. Qed.

  Lemma pan_mono o m tr s1 s2 s3 : le s2 s3 -> pan E o m tr s1 s2 -> pan E o m tr s1 s3.
  Proof.
    intros Le. pose proof (le_wrtn _ _ Le) as H. pose proof (le_cap _ _ Le) as Hc.
    pose proof (fun n => lenres_up n tr s1 s2 s3 H) as U. pose proof (fun n it b => grow_pan_mono n it b m tr s1 s2 s3 Hc) as U'.
    destruct o; simpl; try tauto; try (intros (nn & X); exists nn; intuition auto; fail).
    - intros (b & X). exists b. destruct X as [X|[(H1 & H2 & H3 & H4)|[(H1 & H2 & H3 & H4)|(it & H1 & H2)]]].
      + left. assumption.
      + right; left. repeat split; auto. lia.
      + right; right; left. repeat split; auto. lia.
      + do 3 right. exists it. auto.
    - intros (H1 & H2 & n & X). split; [assumption|]. split; [assumption|]. exists n. intuition auto.
    - intros (H1 & H2 & n & X). split; [assumption|]. split; [assumption|]. exists n. intuition auto.
  Qed.

  (** a call ends *)
  Lemma fin_lk t L i : fin L -> lk t L i = None.
  Proof.
    intros F. destruct (lk t L i) eqn:H; [|reflexivity]. exfalso.
    assert (X : lk t L i <> None) by congruence. apply lk_in_some in X. destruct X as (k & Hk & Ht).
    unfold fin in F. rewrite Forall_forall in F. specialize (F k Hk). destruct k as [a [|n] [| |]| | |]; try contradiction.
    simpl in Ht. destruct (Nat.leb_spec a i), (Nat.ltb_spec i (a + 0)); simpl in *; try congruence; lia.
  Qed.
  Lemma dead_lk t L i x : dead L -> lk t L i = Some x -> x = GPend t.
  Proof.
    intros D. induction L as [|k L IH]; simpl; [discriminate|]. inversion D as [|? ? Hk HL]; subst.
    destruct k as [a n [| |]| | |]; try contradiction. simpl. destruct ((a <=? i) && (i <? a + n)); [congruence|auto].
  Qed.
  Lemma dead_grow L : dead L -> ~ Exists (@is_grow V) L.
  Proof.
    intros D H. apply Exists_exists in H. destruct H as (k & Hk & Hg). unfold dead in D. rewrite Forall_forall in D.
    specialize (D k Hk). destruct k as [a n [| |]| | |]; simpl in *; contradiction.
  Qed.
  Lemma fin_dead L : fin L -> dead L.
  Proof.
    unfold fin, dead. apply Forall_impl. intros k. destruct k as [a [|n] [| |]| | |]; simpl; tauto.
  Qed.

  Lemma end_open h e id id' u o : id < length h -> (forall j, is_end j e = (id =? j)) ->
    (open (h ++ [e]) id' u o <-> open h id' u o /\ id' <> id).
  Proof.
    intros Hid He. assert (Ne : forall k t o, e <> EInv k t o).
    { intros k t' o' ->. specialize (He id). simpl in He. rewrite Nat.eqb_refl in He. discriminate. }
    unfold open. rewrite existsb_app. simpl. rewrite He, orb_false_r, orb_false_iff. split.
    - intros (H1 & H2 & H3). apply Nat.eqb_neq in H3. split; [split; [|assumption]|auto].
      destruct (Nat.lt_ge_cases id' (length h)) as [Hl|Hl].
      + now rewrite nth_error_app1 in H1.
      + rewrite nth_error_app2 in H1 by assumption. destruct (id' - length h) as [|k]; simpl in H1.
        * exfalso. injection H1 as H1. now apply Ne in H1.
        * destruct k; discriminate.
    - intros ((H1 & H2) & H3). split; [|split; [assumption|]].
      + rewrite nth_error_app1; [assumption|]. apply nth_error_Some. congruence.
      + apply Nat.eqb_neq. auto.
  Qed.

  (** The ghost status after call [t] gave up its reservations. *)
  Definition kill (t : nat) g : nat -> gst V :=
    fun i => match g i with GPend u => if u =? t then GDead else GPend u | x => x end.

  Lemma kill_own t g u i : u <> t -> own u (kill t g i) = own u (g i).
  Proof.
    intros N. unfold kill. destruct (g i) eqn:X; try reflexivity. destruct (Nat.eqb_spec t0 t) as [->|]; [|reflexivity].
    symmetry. apply own_none. simpl. congruence.
  Qed.
  Lemma kill_full t g i : full (kill t g i) <-> full (g i).
  Proof. unfold kill. destruct (g i); simpl; try tauto. destruct (t0 =? t); simpl; tauto. Qed.
  Lemma kill_free t g i : kill t g i = GFree <-> g i = GFree.
  Proof. unfold kill. destruct (g i); simpl; try tauto. destruct (t0 =? t); split; discriminate. Qed.
  Lemma kill_res t g i u : u <> t -> (res_by u (kill t g i) <-> res_by u (g i)).
  Proof.
    intros N. unfold kill. destruct (g i); try tauto. destruct (Nat.eqb_spec t0 t) as [->|]; [|tauto].
    split; intros [H|[H|(v & H)]]; try discriminate. congruence.
  Qed.

  Lemma kill_inv t s g L : Inv s g -> view s g t L -> dead L -> Inv s (kill t g).
  Proof.
    intros I Vw D. pose proof I as [I1 I2 I3 I4 I5 I6]. constructor; auto.
    - intros i. specialize (I3 i). unfold kill. destruct (g i); auto. destruct (t0 =? t); auto.
    - intros i. rewrite kill_free. apply I4.
    - intros i Hi. apply kill_full. auto.
    - intros u Hu. specialize (I6 u Hu). unfold kill. rewrite I6. destruct (Nat.eqb_spec u t) as [->|]; [|reflexivity].
      exfalso. apply (dead_grow L D). now apply (v_grow _ _ _ _ Vw).
  Qed.
  Lemma kill_view t s g L : view s g t L -> dead L -> view s (kill t g) t [].
  Proof.
    intros Vw D. constructor; simpl; auto.
    - intros i. apply own_none. unfold kill. pose proof (v_own _ _ _ _ Vw i) as O.
      destruct (g i) eqn:X; simpl; try discriminate.
      + destruct (Nat.eqb_spec t0 t); simpl; congruence.
      + intros [= ->]. unfold own in O. simpl in O. rewrite Nat.eqb_refl in O. symmetry in O. apply (dead_lk _ _ _ _ D) in O. discriminate.
      + intros [= ->]. unfold own in O. simpl in O. rewrite Nat.eqb_refl in O. symmetry in O. apply (dead_lk _ _ _ _ D) in O. discriminate.
      + intros [= ->]. unfold own in O. simpl in O. rewrite Nat.eqb_refl in O. symmetry in O. apply (dead_lk _ _ _ _ D) in O. discriminate.
    - intros Hg. exfalso. apply (dead_grow L D). now apply (v_grow _ _ _ _ Vw).
  Qed.
  Lemma kill_view_other t u s g L : u <> t -> view s g u L -> view s (kill t g) u L.
  Proof.
    intros N [O D K W]. constructor; auto. intros i. rewrite kill_own by assumption. apply O.
  Qed.

  Lemma kill_none t s g L : view s g t L -> fin L -> forall i, kill t g i = g i.
  Proof.
    intros Vw F i. unfold kill. destruct (g i) eqn:X; try reflexivity. destruct (Nat.eqb_spec t0 t) as [->|]; [|reflexivity].
    exfalso. pose proof (v_own _ _ _ _ Vw i) as O. rewrite X in O. unfold own in O. simpl in O. rewrite Nat.eqb_refl in O.
    rewrite (fin_lk t L i F) in O. discriminate.
  Qed.

  Lemma dead_res t s g L i : view s g t L -> dead L -> res_by t (g i) -> g i = GPend t.
  Proof.
    intros Vw D R. pose proof (res_by_own _ _ R) as O. rewrite (v_own _ _ _ _ Vw i) in O. now apply (dead_lk _ _ _ _ D) in O.
  Qed.

  Lemma same_call c snap g t x u y :
    GI c snap g -> lookup t (run c) = Some x -> lookup u (run c) = Some y -> c_id y = c_id x -> u = t /\ y = x.
  Proof.
    intros G H1 H2 Hid. destruct (gi_run _ _ _ G t x H1) as ((O1 & _) & _), (gi_run _ _ _ G u y H2) as ((O2 & _) & _).
    rewrite Hid in O2. rewrite O1 in O2. assert (u = t) by congruence. subst u. split; congruence.
  Qed.

  Lemma step_end_GI c snap g t x L e gv :
    GI c snap g -> lookup t (run c) = Some x -> view (sh c) g t L -> dead L ->
    (forall j, is_end j e = (c_id x =? j)) -> evok snap (hist c) e ->
    (forall i, pmatch (remove t (run c)) (a_pos (apply (replay a0 (hist c)) e) i) (kill t g i)) ->
    agree (sh c) (apply (replay a0 (hist c)) e) -> accs (c_id x) [e] = [] ->
    Forall (grant_ok (sh c)) gv ->
    exists snap', GI (Cfg (sh c) (remove t (run c)) (hist c ++ [e]) gv) snap' (kill t g).
  Proof.
    intros G Lk Vw D He EV P' A' Ac Gv.
    pose proof (gi_inv _ _ _ G) as I. pose proof (gi_expl _ _ _ G) as X. pose proof (gi_snap _ _ _ G) as Sn.
    set (n := length (hist c)) in *.
    assert (Ids : forall u z, lookup u (run c) = Some z -> c_id z < n).
    { intros u z Hz. destruct (gi_run _ _ _ G u z Hz) as (O & _). now apply open_lt in O. }
    assert (OS : forall id u o, open (hist c ++ [e]) id u o <-> open (hist c) id u o /\ id <> c_id x).
    { intros. apply end_open; auto. now apply (Ids t). }
    exists (ext snap n (sh c)). constructor; simpl.
    - eapply kill_inv; eauto.
    - unfold ext. rewrite app_length. simpl. destruct (Nat.leb_spec (length (hist c) + 1) n); [unfold n in *; lia|reflexivity].
    - apply expl_snoc; auto.
      + eapply gi_good; eauto.
      + now rewrite replay_snoc.
      + fold n. rewrite Sn. intros _. apply mono_refl.
    - intros i. rewrite replay_snoc. apply P'.
    - intros u z Hz. destruct (Nat.eq_dec u t) as [->|N].
      { rewrite lookup_remove_same in Hz by apply (gi_nodup _ _ _ G). discriminate. }
      rewrite lookup_remove_other in Hz by assumption.
      destruct (gi_run _ _ _ G u z Hz) as (O & Lz & s0 & Vz & Le & W).
      assert (Nid : c_id z <> c_id x).
      { intros Hid. destruct (same_call _ _ _ _ _ _ _ G Lk Hz Hid). contradiction. }
      split; [apply OS; auto|]. exists Lz, s0. split; [now apply kill_view_other|]. split; [assumption|].
      pose proof (Ids _ _ Hz). unfold ext. destruct (Nat.leb_spec (c_id z) n); [|lia].
      rewrite accs_app. assert (Az : accs (c_id z) [e] = []).
      { destruct e; try reflexivity. specialize (He (c_id x)). simpl in He. rewrite Nat.eqb_refl in He. discriminate. }
      rewrite Az, app_nil_r. exact W.
    - intros u Hu. destruct (Nat.eq_dec u t) as [->|N].
      + eapply kill_view; eauto.
      + rewrite lookup_remove_other in Hu by assumption. apply kill_view_other; auto. now apply (gi_idle _ _ _ G).
    - intros id u o O. apply OS in O. destruct O as [O Nid]. destruct (gi_open _ _ _ G _ _ _ O) as (z & Hz & Hi).
      exists z. split; [|assumption]. rewrite lookup_remove_other; [assumption|]. intros ->. congruence.
    - apply remove_nodup, G.
    - exact Gv.
  Qed.

  Lemma step_ret_GI c snap g t x r :
    GI c snap g -> lookup t (run c) = Some x -> c_prog x = Ret r ->
    exists snap', GI (Cfg (sh c) (remove t (run c)) (hist c ++ [ERet (c_id x) t r]) (given c ++ grants r)) snap' (kill t g).
  Proof.
    intros G Lk Hp. destruct (gi_run _ _ _ G t x Lk) as (O & L & s0 & Vw & Le & W). rewrite Hp in W. simpl in W.
    destruct W as (F & Po & Gr). pose proof (gi_snap _ _ _ G) as Sn.
    assert (Po' : post E (c_op x) r (accs (c_id x) (hist c)) (snap (c_id x)) (sh c) /\ Forall (grant_ok (sh c)) (grants r)).
    { split; [|eapply Forall_impl; [|exact Gr]; intros gr; apply grant_mono; now apply le_mono].
      apply (post_mono _ _ _ _ s0); [apply Le|assumption]. }
    assert (NR : forall i, a_pos (replay a0 (hist c)) i <> Reserved (c_id x)).
    { intros i Hi. pose proof (gi_pos _ _ _ G i) as P. rewrite Hi in P. simpl in P. destruct P as (u & y & H1 & H2 & H3).
      destruct (same_call _ _ _ _ _ _ _ G Lk H1 H2) as [-> _].
      pose proof (res_by_own _ _ H3) as Y. rewrite (v_own _ _ _ _ Vw i), (fin_lk t L i F) in Y. discriminate. }
    destruct (step_end_GI c snap g t x L (ERet (c_id x) t r) (given c ++ grants r)) as (snap' & G'); auto.
    - now apply fin_dead.
    - unfold evok. rewrite Sn. split; [exists (c_op x); exact O|]. split; [eapply gi_good; eauto|]. split; [eapply gi_agree; eauto|].
      split; [exact NR|]. exists (c_op x). split; [exact O|]. exact Po'.
    - intros i. simpl. rewrite (kill_none t (sh c) g L Vw F). pose proof (gi_pos _ _ _ G i) as P.
      destruct (a_pos (replay a0 (hist c)) i) eqn:Hi; simpl in *; auto.
      destruct P as (u & y & H1 & H2 & H3). exists u, y. split; [|auto]. rewrite lookup_remove_other; [assumption|].
      intros ->. apply (NR i). rewrite Hi. f_equal. congruence.
    - simpl. eapply gi_agree; eauto.
    - apply Forall_app. split; [apply G|apply Po'].
    - eauto.
  Qed.

  Lemma step_pan_GI c snap g t x m :
    GI c snap g -> lookup t (run c) = Some x -> c_prog x = Pan m ->
    exists snap', GI (Cfg (sh c) (remove t (run c)) (hist c ++ [EPan (c_id x) t m]) (given c)) snap' (kill t g).
  Proof.
    intros G Lk Hp. destruct (gi_run _ _ _ G t x Lk) as (O & L & s0 & Vw & Le & W). rewrite Hp in W. simpl in W.
    destruct W as (D & Po). pose proof (gi_snap _ _ _ G) as Sn. pose proof (gi_agree _ _ _ G) as AG.
    assert (Po' : pan E (c_op x) m (accs (c_id x) (hist c)) (snap (c_id x)) (sh c)).
    { apply (pan_mono _ _ _ _ s0); assumption. }
    destruct (step_end_GI c snap g t x L (EPan (c_id x) t m) (given c)) as (snap' & G'); auto.
    - unfold evok. rewrite Sn. split; [exists (c_op x); exact O|]. split; [eapply gi_good; eauto|]. split; [assumption|].
      split; [exact Logic.I|]. exists (c_op x). split; [exact O|]. exact Po'.
    - intros i. simpl. pose proof (gi_pos _ _ _ G i) as P.
      destruct (a_pos (replay a0 (hist c)) i) as [|id| |v] eqn:Hi; simpl in *.
      + apply kill_free. assumption.
      + destruct P as (u & y & H1 & H2 & H3). destruct (Nat.eqb_spec id (c_id x)) as [Eid|Nid]; simpl.
        * rewrite <- H2 in Eid. destruct (same_call _ _ _ _ _ _ _ G Lk H1 Eid) as [-> ->].
          unfold kill. rewrite (dead_res _ _ _ _ _ Vw D H3), Nat.eqb_refl. reflexivity.
        * assert (u <> t) by (intros ->; congruence). exists u, y. rewrite lookup_remove_other by assumption.
          split; [assumption|]. split; [assumption|]. now apply kill_res.
      + unfold kill. rewrite P. reflexivity.
      + now apply kill_full.
    - destruct AG as [A1 A2 A3]. constructor; simpl; auto. intros i. rewrite A3. unfold value. simpl.
      destruct (a_pos (replay a0 (hist c)) i); simpl; try reflexivity. destruct (id =? c_id x); reflexivity.
    - apply G.
    - eauto.
  Qed.

  (** exclusive operations *)
  Lemma rest_of c snap g : GI c snap g -> run c = [] -> at_rest (hist c).
  Proof. intros G R id t o O. destruct (gi_open _ _ _ G _ _ _ O) as (x & Hx & _). rewrite R in Hx. discriminate. Qed.

  Lemma excl_open h (e : event V) id u o : (forall k t o, e <> EInv k t o) -> open (h ++ [e]) id u o -> open h id u o.
  Proof.
    intros Ne [H1 H2]. rewrite existsb_app in H2. apply orb_false_iff in H2. split; [|tauto].
    destruct (Nat.lt_ge_cases id (length h)) as [Hl|Hl].
    - now rewrite nth_error_app1 in H1.
    - rewrite nth_error_app2 in H1 by assumption. destruct (id - length h) as [|k]; simpl in H1.
      + exfalso. injection H1 as H1. now apply Ne in H1.
      + destruct k; discriminate.
  Qed.

  Lemma step_clear_GI c snap g :
    GI c snap g -> run c = [] ->
    exists snap', GI (Cfg (init [] (cap (sh c)) (maxc (sh c))) [] (hist c ++ [EClear]) []) snap' (fun _ => GFree).
  Proof.
    intros G R. pose proof (gi_inv _ _ _ G) as I. pose proof (gi_expl _ _ _ G) as X. pose proof (gi_snap _ _ _ G) as Sn.
    pose proof (gi_agree _ _ _ G) as AG. pose proof (rest_of _ _ _ G R) as Rest.
    set (n := length (hist c)) in *. set (s' := init (V:=V) [] (cap (sh c)) (maxc (sh c))).
    assert (I' : Inv s' (fun _ => GFree)).
    { constructor; simpl; auto.
      - apply I.
      - pose proof (i_wm _ _ _ _ I). lia.
      - intros i _. now destruct i.
      - intros i. split; [lia|auto].
      - intros i Hi. lia.
      - discriminate. }
    assert (A' : agree s' (replay a0 (hist c ++ [EClear]))).
    { rewrite replay_snoc. constructor; simpl; [reflexivity|apply AG|]. intros i. unfold cell, value. simpl.
      destruct (i <? cap (sh c)); now destruct i. }
    exists (ext snap n s'). constructor; simpl; try discriminate; auto.
    - unfold ext. rewrite app_length. simpl. destruct (Nat.leb_spec (length (hist c) + 1) n); [unfold n in *; lia|reflexivity].
    - apply expl_snoc; auto.
      + unfold evok. fold n. rewrite Sn. split; [exact Rest|]. split; [eapply gi_good; eauto|]. split; [assumption|].
        split; exact Logic.I.
      + now exists (fun _ => GFree).
      + congruence.
    - intros i. rewrite replay_snoc. reflexivity.
    - intros t _. constructor; simpl; auto; discriminate.
    - intros id t o O. apply excl_open in O; [|discriminate]. now apply Rest in O.
    - constructor.
  Qed.

  Lemma step_reserve_GI c snap g k m :
    GI c snap g -> run c = [] -> reserve E (cap (sh c)) (maxc (sh c)) k = Some m ->
    exists snap', GI (Cfg (Shared (resv (sh c)) (wrtn (sh c)) (cap (sh c)) m None (slots (sh c))) [] (hist c ++ [EReserve k m]) (given c)) snap' g.
  Proof.
    intros G R Hm. pose proof (gi_inv _ _ _ G) as I. pose proof (gi_expl _ _ _ G) as X. pose proof (gi_snap _ _ _ G) as Sn.
    pose proof (gi_agree _ _ _ G) as AG. pose proof (rest_of _ _ _ G R) as Rest.
    destruct (ok_res _ EOK _ _ _ _ (i_cap _ _ _ _ I) Hm) as [Hle Hok].
    set (n := length (hist c)) in *. set (s' := Shared (resv (sh c)) (wrtn (sh c)) (cap (sh c)) m None (slots (sh c))).
    assert (I' : Inv s' g).
    { destruct I as [I1 I2 I3 I4 I5 I6]. constructor; simpl; auto; discriminate. }
    assert (A' : agree s' (replay a0 (hist c ++ [EReserve k m]))).
    { rewrite replay_snoc. destruct AG as [A1 A2 A3]. constructor; simpl; auto. }
    assert (Mo : mono (sh c) s').
    { constructor; simpl; auto. }
    exists (ext snap n s'). constructor; simpl; try discriminate; auto.
    - unfold ext. rewrite app_length. simpl. destruct (Nat.leb_spec (length (hist c) + 1) n); [unfold n in *; lia|reflexivity].
    - apply expl_snoc; auto.
      + unfold evok. fold n. rewrite Sn. split; [exact Rest|]. split; [eapply gi_good; eauto|]. split; [assumption|].
        split; [|exact Logic.I]. simpl. rewrite <- (ag_max _ _ AG). assumption.
      + now exists g.
      + fold n. rewrite Sn. auto.
    - intros i. rewrite replay_snoc. simpl. pose proof (gi_pos _ _ _ G i) as P. rewrite R in P. exact P.
    - intros t _. destruct (gi_idle _ _ _ G t) as [O D K W]; [rewrite R; reflexivity|]. constructor; simpl; auto; discriminate.
    - intros id t o O. apply excl_open in O; [|discriminate]. now apply Rest in O.
    - constructor.
    - eapply Forall_impl; [|apply (gi_given _ _ _ G)]. intros gr. now apply grant_mono.
  Qed.

  (** ** Soundness *)
  Definition actor (t : nat) (l : label V) : Prop :=
    match l with LInv u _ | LStep u => u = t | _ => False end.

  Theorem step_GI c snap g l :
    GI c snap g -> disciplined E ro nl c l ->
    match step E c l with
    | Next c' => exists snap' g', GI c' snap' g' /\
                   forall u i, ~ actor u l -> own u (g' i) = own u (g i)
    | Fault _ => False
    | Disabled => True
    end.
  Proof.
    intros G D. destruct l as [t o|t| |k].
    - destruct (step E c (LInv t o)) as [c'|f|] eqn:S.
      + destruct (step_inv_GI c snap g t o c' G D S) as (snap' & G'). eauto.
      + simpl in S. destruct (lookup t (run c)); [discriminate|]. destruct (has_grant o (given c)); discriminate.
      + exact Logic.I.
    - simpl. unfold step_thread. destruct (lookup t (run c)) as [x|] eqn:Lk; [|exact Logic.I].
      destruct (gi_run _ _ _ G t x Lk) as (O & L & s0 & Vw & Le & W).
      destruct (c_prog x) as [r|m|a k|a again k] eqn:Hp.
      + destruct (step_ret_GI c snap g t x r G Lk Hp) as (snap' & G'). exists snap', (kill t g).
        split; [assumption|]. intros u i N. apply kill_own. congruence.
      + destruct (step_pan_GI c snap g t x m G Lk Hp) as (snap' & G'). exists snap', (kill t g).
        split; [assumption|]. intros u i N. apply kill_own. congruence.
      + simpl in W.
        assert (Fi : fits E a (sh c)). { destruct a; simpl; auto. eapply D; eauto. }
        destruct (W (sh c) g Le (gi_inv _ _ _ G) Vw Fi) as (y & s' & l & g' & L' & Ex & I' & Vw' & Gu & Lg & K).
        rewrite Ex. destruct (step_acc_GI c snap g t x (k y) s' g' l L' G Lk I' Vw' Gu Lg K) as (snap' & G').
        exists snap', g'. split; [assumption|]. intros u i N. apply (gu_own _ _ _ _ _ Gu). congruence.
      + simpl in W. destruct W as [SO W].
        assert (Fi : fits E a (sh c)). { destruct a; simpl; auto. destruct SO. }
        destruct (W (sh c) g Le (gi_inv _ _ _ G) Vw Fi) as [(y & l & Ex & Ag)|(y & s' & l & g' & L' & Ex & Ag & I' & Vw' & Gu & Lg & K)].
        * rewrite Ex, Ag. eauto.
        * rewrite Ex, Ag. destruct (step_acc_GI c snap g t x (k y) s' g' l L' G Lk I' Vw' Gu Lg K) as (snap' & G').
          exists snap', g'. split; [assumption|]. intros u i N. apply (gu_own _ _ _ _ _ Gu). congruence.
    - simpl. destruct (run c) eqn:R; [|exact Logic.I]. unfold clear. simpl in D.
      destruct (Nat.leb_spec (resv (sh c)) (cap (sh c))); [|lia].
      destruct (step_clear_GI c snap g G R) as (snap' & G'). eexists. eexists. split; [exact G'|].
      intros u i _. symmetry. apply (gi_idle _ _ _ G u). now rewrite R.
    - simpl. destruct (run c) eqn:R; [|exact Logic.I]. unfold reserve_maximum_capacity.
      destruct (reserve E (cap (sh c)) (maxc (sh c)) k) as [m|] eqn:Hm.
      + destruct (step_reserve_GI c snap g k m G R Hm) as (snap' & G'). eauto.
      + eauto.
  Qed.

  Theorem reach_GI c :
    capok E c0 m0 -> length l0 <= c0 -> length l0 < wmod E ->
    reach E (disciplined E ro nl) (start l0 c0 m0) c -> exists snap g, GI c snap g.
  Proof.
    intros H1 H2 H3 R. induction R as [|c l c' R IH D S].
    - eexists. eexists. now apply start_GI.
    - destruct IH as (snap & g & G). pose proof (step_GI c snap g l G D) as X. rewrite S in X.
      destruct X as (snap' & g' & G' & _). eauto.
  Qed.
End Sound.
