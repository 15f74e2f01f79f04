(** * Every call satisfies its relation of [Post.v]. *)

From Coq Require Import List Arith Bool Lia Permutation.
From Verif.Model Require Import Prog Mem Deps State Elem Vec Excl Machine.
From Verif Require Import Client.
From Verif.Logic Require Import Inv WP Post Specs.
Import ListNotations.
Local Arguments Nat.leb : simpl never.
Local Arguments Nat.ltb : simpl never.
Local Arguments Nat.eqb : simpl never.
Local Arguments Nat.add : simpl never.
Local Arguments Nat.sub : simpl never.

Section Ops.
  Context {V : Type} (E : env V) (ro nl : bool) (EOK : env_ok E) (t : nat).
  Notation Inv := (Inv E ro).
  Notation good := (good E ro).
  Notation wp := (wp E ro nl t).
  Notation shared := (shared V).
  Notation prog := (prog V).
  Notation acc := (acc V).
  Notation wpost := (wpost E).
  Notation wpan := (wpan E).
  Implicit Types (s : shared) (g : nat -> gst V) (L : list (tok V)) (tr : list acc).

  Ltac effs := rewrite ?eff_app, ?eff_reads, ?eff_inits, ?eff_writes;
               repeat match goal with H : eff _ = [] |- _ => rewrite H end; try reflexivity.
  Ltac lele := eauto 15 using le_trans.
  Ltac lenr R := first
    [ exact R
    | destruct R as [? ?]; split; [|assumption];
      repeat match goal with H : le _ _ |- _ => pose proof (le_wrtn _ _ H); clear H end; lia
    | (eapply lenres_weak_r; [reflexivity| |exact R]);
      repeat match goal with H : le _ _ |- _ => pose proof (le_wrtn _ _ H); clear H end; lia ].
  Ltac fini := split; [apply fin_nil|].
  Ltac one := constructor; [|constructor].

  Lemma frange_elems s a n : frange s a n -> Forall (grant_ok s) (map GElem (seq a n)).
  Proof.
    intros H. apply Forall_forall. intros x Hx. apply in_map_iff in Hx. destruct Hx as (i & <- & Hi).
    apply in_seq in Hi. apply H. lia.
  Qed.
  Lemma frange_pick s a n bs : frange s a n -> length bs = n -> Forall (grant_ok s) (map GElem (pick a bs)).
  Proof.
    revert a n. induction bs as [|b bs IH]; intros a n H Hl; simpl; [constructor|].
    destruct n; [discriminate|]. injection Hl as Hl.
    assert (frange s (S a) n) by (eapply frange_tl; eauto using le_refl).
    destruct b; simpl; [constructor|]; eauto. apply (frange_hd _ _ _ H).
  Qed.
  Lemma frange_le s s' a n : le s s' -> frange s a n -> frange s' a n.
  Proof. intros H F i Hi. apply (le_fill _ _ H). auto. Qed.
  Lemma slice_grant s a n : good s -> a + n <= wrtn s -> grant_ok s (GSlice (CSlice a n)).
  Proof.
    intros G H. simpl. split; [assumption|]. split; [pose proof (good_wrtn_cap _ _ _ G); lia|].
    intros i Hi. eapply good_filled_wrtn; eauto. lia.
  Qed.
  Lemma sub_grant s x a n : grant_ok s (GSlice x) -> a + n <= sl_len x -> grant_ok s (GSlice (CSlice (sl_a x + a) n)).
  Proof. intros (H0 & H1 & H2) H. simpl in *. split; [lia|]. split; [lia|]. intros i Hi. apply H2. lia. Qed.
  Lemma grant_le s s' x : le s s' -> grant_ok s x -> grant_ok s' x.
  Proof.
    intros H. destruct x as [i|x|i]; simpl; try apply (le_fill _ _ H).
    intros (H0 & H1 & H2). split; [pose proof (le_wrtn _ _ H); lia|]. split; [pose proof (le_cap _ _ H); lia|]. intros i Hi. apply (le_fill _ _ H). auto.
  Qed.

  (** ** elements *)
  Lemma eop_wp i o sI :
    good sI -> filledp sI i -> (if ro then updates (OElem i o) = false else True) ->
    wp (wpost (OElem i o) sI) (wpan (OElem i o) sI) (eop_prog E i o) [] [] sI.
  Proof.
    intros G F U. destruct o; simpl in U; cbn [eop_prog].
    - apply wp_fmap. apply wp_elem_cloned; auto. intros v s L1 G1 F1. fini. split; [|constructor].
      exists v. auto.
    - apply wp_fmap. apply wp_elem_cloned; auto. intros v s L1 G1 F1. fini. split; [|constructor].
      exists v. auto.
    - apply wp_fmap. apply wp_elem_map; auto. intros v s L1 G1 F1. destruct (f v) as [u|] eqn:Fv.
      + fini. split; [|constructor]. exists v, u. auto.
      + split; [apply dead_nil|]. split; [reflexivity|]. exists v. auto.
    - assert (Hro : ro = false) by (destruct ro; [discriminate|reflexivity]).
      apply wp_fmap. apply wp_elem_replace; auto. intros old s L1 G1. fini. split; [|constructor].
      exists old. auto.
    - assert (Hro : ro = false) by (destruct ro; [discriminate|reflexivity]).
      apply wp_fmap. apply wp_elem_set; auto. intros old s L1 G1. fini. split; [|constructor].
      exists old. auto.
    - assert (Hro : ro = false) by (destruct ro; [discriminate|reflexivity]).
      apply wp_fmap. apply wp_elem_update; auto. intros old s L1 G1. destruct (snd (f old)) eqn:Fo.
      + fini. split; [|constructor]. exists old. auto.
      + split; [apply dead_nil|]. split; [reflexivity|]. exists old. auto.
    - apply wp_fmap. apply wp_elem_map; auto. intros x s L1 G1 F1. fini. split; [|constructor].
      exists x. auto.
  Qed.

  (** ** slices *)
  Lemma sop_wp x o sI :
    good sI -> grant_ok sI (GSlice x) ->
    (if ro then updates (OSl x o) = false else True) ->
    ranges_ok E (OSl x o) ->
    (nl = true -> swaps (OSl x o) = true -> hspin E = false) ->
    wp (wpost (OSl x o) sI) (wpan (OSl x o) sI) (sop_prog E x o) [] [] sI.
  Proof.
    intros G GR U RO SW. pose proof GR as (Gw & Gc & Gf).
    assert (FR : frange sI (sl_a x) (sl_len x)) by exact Gf.
    destruct o; simpl in U; cbn [sop_prog].
    - (* get *)
      apply wp_fmap. unfold slice_get. destruct (Nat.ltb_spec i (sl_len x)) as [Hi|Hi].
      + apply wp_core_get_in; [lia|]. intros s c L1 G1 Hc. fini. split.
        * simpl. destruct (Nat.ltb_spec i (sl_len x)); [|lia]. auto.
        * one. apply (le_fill _ _ L1). apply FR. lia.
      + fini. split; [|constructor]. simpl. destruct (Nat.ltb_spec i (sl_len x)); [lia|]. auto.
    - (* index *)
      apply wp_fmap. unfold slice_index, slice_get. apply wp_bind. destruct (Nat.ltb_spec i (sl_len x)) as [Hi|Hi].
      + apply wp_core_get_in; [lia|]. intros s c L1 G1 Hc. fini. split.
        * simpl. auto.
        * one. apply (le_fill _ _ L1). apply FR. lia.
      + split; [apply dead_nil|]. simpl. auto.
    - (* get_cloned *)
      apply wp_fmap. unfold slice_get_cloned. destruct (Nat.ltb_spec i (sl_len x)) as [Hi|Hi].
      + apply wp_bind. apply wp_core_get_in; [lia|]. intros s c L1 G1 Hc.
        apply wp_bind. apply wp_elem_cloned; auto.
        { apply (le_fill _ _ L1). apply FR. lia. }
        intros v s2 L2 G2 F2. fini. split; [|constructor]. left. split; [assumption|]. exists v. auto.
      + fini. split; [|constructor]. right. auto.
    - (* slice *)
      apply wp_fmap. unfold slice_slice. apply wp_limits; auto.
      + intros p q Er Hpq. fini. split.
        * exists p, q. auto.
        * one. apply (sub_grant _ _ p (q - p) GR); lia.
      + intros Ho. split; [apply dead_nil|]. split; [reflexivity|]. auto.
    - (* iter *)
      apply wp_fmap. apply wp_slice_iter; auto. intros s L1 G1. fini. split; [split; auto|].
      apply frange_elems. eapply frange_le; eauto.
    - (* iter_cloned *)
      apply wp_fmap. unfold slice_iter_cloned. apply wp_bind. apply wp_slice_iter; auto. intros s L1 G1.
      apply wp_clone_elems; auto; [eapply frange_le; eauto|].
      intros vs s2 L2 G2 Hl. fini. split; [|constructor]. exists vs. repeat split; auto. effs.
    - (* swap *)
      assert (Hro : ro = false) by (destruct ro; [discriminate|reflexivity]).
      apply wp_fmap. unfold slice_swap, slice_idx.
      destruct (Nat.ltb_spec i (sl_len x)) as [Hi|Hi]; [destruct (Nat.ltb_spec j (sl_len x)) as [Hj|Hj]|].
      + apply wp_swap; auto. intros b tr1 s L1 G1 P1. fini. split; [|constructor]. left. auto.
      + fini. split; [|constructor]. right. auto.
      + destruct (Nat.ltb_spec j (sl_len x)); fini; (split; [|constructor]); right; auto.
    - (* fill *)
      assert (Hro : ro = false) by (destruct ro; [discriminate|reflexivity]).
      apply wp_fmap. unfold slice_fill. apply wp_bind. apply wp_slice_iter; auto. intros s L1 G1.
      apply wp_fill_elems; auto; [eapply frange_le; eauto|].
      intros olds s2 L2 G2 Hl. fini. split; [|constructor]. exists olds. repeat split; auto. effs.
    - (* fill_with *)
      assert (Hro : ro = false) by (destruct ro; [discriminate|reflexivity]).
      apply wp_fmap. unfold slice_fill_with. apply wp_bind. apply wp_slice_iter; auto. intros s L1 G1.
      apply wp_fill_elems_with; auto; [eapply frange_le; eauto| |].
      + intros ps s2 L2 G2 Hl Hp. fini. split; [|constructor]. exists ps. repeat split; auto. effs.
      + intros ps s2 L2 G2 Hl Hp. split; [apply dead_nil|]. split; [reflexivity|]. exists ps. repeat split; auto. effs.
    - (* index_of *)
      apply wp_fmap. unfold slice_index_of. apply wp_bind. apply wp_slice_iter; auto. intros s L1 G1.
      apply wp_position; auto; [eapply frange_le; eauto| |].
      + intros vs s2 L2 G2 Hl Hx. fini. split; [|constructor]. exists None. split; [reflexivity|].
        exists vs. split; [effs|]. auto.
      + intros vs j s2 L2 G2 Hj Hl Hx. fini. split; [|constructor]. exists (Some j). split; [reflexivity|].
        exists vs. split; [effs|]. auto.
    - (* contains *)
      apply wp_fmap. unfold slice_contains, slice_index_of. apply wp_bind. apply wp_bind. apply wp_slice_iter; auto. intros s L1 G1.
      apply wp_position; auto; [eapply frange_le; eauto| |].
      + intros vs s2 L2 G2 Hl Hx. fini. split; [|constructor]. exists None. split; [reflexivity|].
        exists vs. split; [effs|]. auto.
      + intros vs j s2 L2 G2 Hj Hl Hx. fini. split; [|constructor]. exists (Some j). split; [reflexivity|].
        exists vs. split; [effs|]. auto.
    - (* clone_to_vec *)
      apply wp_fmap. unfold slice_clone_to_vec, slice_iter_cloned. apply wp_bind. apply wp_slice_iter; auto. intros s L1 G1.
      apply wp_clone_elems; auto; [eapply frange_le; eauto|].
      intros vs s2 L2 G2 Hl. fini. split; [|constructor]. exists vs. repeat split; auto. effs.
    - (* map *)
      apply wp_fmap. unfold slice_map. apply wp_bind. apply wp_slice_iter; auto. intros s L1 G1.
      apply wp_map_elems; auto; [eapply frange_le; eauto| |].
      + intros vs us s2 L2 G2 Hl Hm. fini. split; [|constructor]. exists vs, us. repeat split; auto. effs.
      + intros vs s2 L2 G2 Hl Hs. split; [apply dead_nil|]. split; [reflexivity|]. exists vs. split; [assumption|]. split; [effs|assumption].
    - (* filter *)
      apply wp_fmap. unfold slice_filter. apply wp_bind. apply wp_slice_iter; auto. intros s L1 G1.
      apply wp_filter_elems; auto; [eapply frange_le; eauto| |].
      + intros vs bs s2 L2 G2 Hl Hm. fini. split.
        * exists vs, bs. repeat split; auto. effs.
        * eapply frange_pick with (n := sl_len x); [eapply frange_le; [|exact FR]; lele|].
          apply (f_equal (@length _)) in Hm. rewrite mapn_length, map_length in Hm. congruence.
      + intros vs s2 L2 G2 Hl Hs. split; [apply dead_nil|]. split; [reflexivity|]. exists vs. split; [assumption|]. split; [effs|assumption].
    - (* fold *)
      apply wp_fmap. unfold slice_fold. apply wp_bind. apply wp_slice_iter; auto. intros s L1 G1.
      apply wp_fold_elems; auto; [eapply frange_le; eauto| |].
      + intros vs u s2 L2 G2 Hl Hm. fini. split; [|constructor]. exists vs, u. repeat split; auto. effs.
      + intros vs s2 L2 G2 Hl Hs. split; [apply dead_nil|]. split; [reflexivity|]. exists vs. split; [assumption|]. split; [effs|assumption].
    - (* reduce *)
      apply wp_fmap. unfold slice_reduce. apply wp_bind. apply wp_slice_iter; auto. intros s L1 G1.
      destruct (sl_len x) as [|n] eqn:Hn.
      + fini. split; [|constructor]. exists [], None. rewrite Hn. auto.
      + cbn [seq]. apply wp_bind. apply wp_elem_cloned; auto.
        { apply (le_fill _ _ L1). eapply frange_hd; eauto. }
        intros v s2 L2 G2 F2. apply wp_bind. apply wp_fold_elems; auto.
        { eapply frange_tl; [|exact FR]. lele. }
        * intros vs u s3 L3 G3 Hl Hm. fini. split; [|constructor]. exists (v :: vs), (Some u). rewrite Hn. simpl.
          repeat split; auto. { effs. } exists u. auto.
        * intros vs s3 L3 G3 Hl. split; [apply dead_nil|]. split; [reflexivity|]. exists (v :: vs). rewrite Hn. simpl.
          split; [lia|]. split; [effs|assumption].
    - (* split_at *)
      apply wp_fmap. unfold slice_split_at. destruct (Nat.leb_spec m (sl_len x)) as [Hm|Hm].
      + apply wp_bind. apply wp_slice_slice_in; [lia|lia|]. apply wp_bind. apply wp_slice_slice_in; [lia|lia|].
        replace (sl_a x + 0) with (sl_a x) by lia. replace (m - 0) with m by lia.
        fini. split; [split; [assumption|auto]|].
        constructor; [|one].
        * split; [simpl; lia|]; split; [simpl; lia|]. intros i Hi. apply Gf. simpl in *. lia.
        * apply (sub_grant _ _ m (sl_len x - m) GR); lia.
      + split; [apply dead_nil|]. simpl. auto.
    - (* split_first *)
      apply wp_fmap. unfold slice_split_first, slice_get. apply wp_bind. destruct (Nat.ltb_spec 0 (sl_len x)) as [Hi|Hi].
      + apply wp_core_get_in; [lia|]. intros s c L1 G1 Hc. apply wp_bind. apply wp_slice_slice_in; [lia|lia|].
        fini. split.
        * simpl. split; [|reflexivity]. destruct (sl_len x) as [|k]; [lia|].
          replace (sl_a x + 0) with (sl_a x) by lia. replace (S k - 1) with k by lia. reflexivity.
        * constructor; [|one].
          -- apply (le_fill _ _ L1). apply FR. lia.
          -- apply (sub_grant _ _ 1 (sl_len x - 1)); [eapply grant_le; eauto|lia].
      + fini. split; [|constructor]. simpl. destruct (sl_len x); [auto|lia].
    - (* split_last *)
      apply wp_fmap. unfold slice_split_last. destruct (sl_len x) as [|k] eqn:Hn.
      + fini. split; [|constructor]. simpl. rewrite Hn. auto.
      + apply wp_bind. apply wp_slice_slice_in; [lia|lia|]. apply wp_bind. unfold slice_index, slice_get.
        destruct (Nat.ltb_spec (S k - 1) (sl_len x)); [|lia]. apply wp_bind. apply wp_core_get_in; [lia|].
        intros s c L1 G1 Hc. fini. split.
        * simpl. rewrite Hn. replace (S k - 1) with k by lia. replace (sl_a x + 0) with (sl_a x) by lia.
          replace (k - 0) with k by lia. auto.
        * constructor; [|one].
          -- apply (le_fill _ _ L1). apply FR. lia.
          -- apply (sub_grant _ _ 0 (S k - 1 - 0)); [eapply grant_le; eauto|lia].
    - (* chunks *)
      apply wp_fmap. unfold slice_chunks. destruct (Nat.ltb_spec 0 k) as [Hk|Hk].
      + apply wp_slice_chunk_slices; [now apply chunk_ranges_in|]. fini. split; [split; auto|].
        apply Forall_forall. intros y Hy. apply in_map_iff in Hy. destruct Hy as (z & <- & Hz).
        apply in_map_iff in Hz. destruct Hz as (ab & <- & Hab). apply chunk_ranges_in in Hab; [|assumption].
        apply sub_grant; [exact GR|]. lia.
      + split; [apply dead_nil|]. simpl. repeat split; auto. lia.
    - (* eq *)
      apply wp_fmap. unfold slice_eq_list. apply wp_bind. apply wp_slice_iter; auto. intros s L1 G1.
      apply wp_eq_elems; auto; [eapply frange_le; eauto|].
      intros vs b s2 L2 G2 Hl Hl' Hb. fini. split; [|constructor]. exists vs, b. repeat split; auto. effs.
    - (* debug *)
      apply wp_fmap. unfold slice_debug. apply wp_bind. apply wp_slice_iter; auto. intros s L1 G1.
      apply wp_fmt_elems; auto; [eapply frange_le; eauto|].
      intros vs s2 L2 G2 Hl. fini. split; [|constructor]. exists vs. repeat split; auto. effs.
    - (* get_ref *)
      apply wp_fmap. unfold slice_get_ref, slice_idx. destruct (Nat.ltb_spec i (sl_len x)) as [Hi|Hi].
      + apply wp_get_ref.
        * intros tr1 s L1 G1 E1 H1 F1. fini. split; [left; auto|]. one. exact F1.
        * intros tr1 s L1 G1 E1 H1. fini. split; [|constructor]. right. tauto.
      + fini. split; [|constructor]. right. auto.
    - (* iter_ref *)
      apply wp_fmap. unfold slice_iter_ref. apply wp_bind. apply wp_slice_iter; auto. intros s L1 G1.
      apply wp_refs; auto; [pose proof (le_cap _ _ L1); lia|].
      intros bs tr1 s2 L2 G2 Hl E1 Hb Hf. fini. split.
      + exists bs. repeat split; auto.
      + apply Forall_forall. intros y Hy. apply in_map_iff in Hy. destruct Hy as (i & <- & Hi). now apply Hf.
  Qed.

  (** ** the vector *)
  Lemma resv_add s' b n : good s' -> resv s' = b + n -> b + n < wmod E.
  Proof. intros [g I] H. rewrite <- H. apply (i_wm _ _ _ _ I). Qed.

  Lemma op_wp o sI :
    good sI -> (forall gr, needs o = Some gr -> grant_ok sI gr) -> allowed E ro nl o ->
    wp (wpost o sI) (wpan o sI) (op_prog E o) [] [] sI.
  Proof.
    intros G GR (RO & MR & U & SW).
    assert (UU : (if ro then updates o = false else True)) by (destruct ro; auto).
    destruct o; cbn [op_prog].
    - (* push *)
      apply wp_fmap. unfold push. apply wp_do. apply st_AddResv. intros s s1 L0 G0 L1 G1 Hr Hm.
      apply wp_bind. apply wp_single; auto.
      + intros tr1 s2 L2 G2 E1 C2. apply wp_bind. apply wp_init; [assumption|]. intros s3 L3 G3.
        split; [apply fin_zero|]. split; [|constructor]. exists (resv s). split; [reflexivity|]. split; [reflexivity|].
        effs.
      + intros s2 L2 G2 Hmax. split; [apply dead_one|]. exists (resv s). split; [reflexivity|].
        rewrite (le_max _ _ L1), (le_max _ _ L0) in Hmax. auto.
    - (* push_for_idx *)
      apply wp_fmap. unfold push_for_idx. apply wp_do. apply st_AddResv. intros s s1 L0 G0 L1 G1 Hr Hm.
      apply wp_bind. apply wp_chk.
      + intros v Fv. apply wp_bind. apply wp_single; auto.
        * intros tr1 s2 L2 G2 E1 C2. apply wp_bind. apply wp_init; [assumption|]. intros s3 L3 G3.
          split; [apply fin_zero|]. split; [|constructor]. exists (resv s), v. split; [assumption|].
          split; [reflexivity|]. split; [reflexivity|]. effs.
        * intros s2 L2 G2 Hmax. split; [apply dead_one|]. exists (resv s). split; [reflexivity|]. left.
          rewrite (le_max _ _ L1), (le_max _ _ L0) in Hmax. repeat split; auto. congruence.
      + intros Fn. split; [apply dead_one|]. exists (resv s). split; [reflexivity|]. right. auto.
    - (* extend *)
      apply wp_fmap. unfold extend, extend_n_items. apply wp_do. apply st_AddResv. intros s s1 L0 G0 L1 G1 Hr Hm.
      pose proof (resv_add _ _ _ G1 Hr) as Hw.
      apply wp_bind. apply wp_buffer; auto.
      + intros tr1 s2 L2 G2 E1 C2. apply wp_bind. apply wp_write_items; auto.
        * intros vs s3 L3 G3 Hl Hf. split; [apply fin_zero|]. split; [|constructor]. exists (resv s), vs.
          split; [assumption|]. split; [reflexivity|]. split; [assumption|]. effs.
        * intros vs m s3 L3 G3 Hl Hf. split; [apply dead_one|]. exists (resv s). right. split; [pose proof (le_cap _ _ L3); lia|]. exists vs.
          split; [assumption|]. split; [effs|assumption].
      + intros s2 L2 G2 Hn Hmax. split; [apply dead_one|]. exists (resv s). left.
        rewrite (le_max _ _ L1), (le_max _ _ L0) in Hmax. auto.
    - (* extend_for_idx *)
      apply wp_fmap. unfold extend_for_idx. apply wp_do. apply st_AddResv. intros s s1 L0 G0 L1 G1 Hr Hm.
      pose proof (resv_add _ _ _ G1 Hr) as Hw.
      apply wp_bind. apply wp_buffer; auto.
      + intros tr1 s2 L2 G2 E1 C2. apply wp_bind. apply wp_chk.
        * intros [k it] Fv. cbn [fst snd]. destruct (Nat.eqb_spec k n) as [->|Hk].
          -- apply wp_bind. apply wp_write_items; auto.
             ++ intros vs s3 L3 G3 Hl Hf. split; [apply fin_zero|]. split; [|constructor]. exists (resv s), it, vs.
                split; [assumption|]. split; [assumption|]. split; [reflexivity|]. split; [assumption|]. effs.
             ++ intros vs m s3 L3 G3 Hl Hf. split; [apply dead_one|]. exists (resv s). do 3 right. exists it.
                split; [assumption|]. right. split; [pose proof (le_cap _ _ L3); lia|]. exists vs. split; [assumption|]. split; [effs|assumption].
          -- split; [apply dead_one|]. exists (resv s). right; right; left. split; [reflexivity|].
             split; [exists k, it; auto|]. split; [effs|assumption].
        * intros Fn. split; [apply dead_one|]. exists (resv s). right; left. split; [reflexivity|].
          split; [assumption|]. split; [effs|assumption].
      + intros s2 L2 G2 Hn Hmax. split; [apply dead_one|]. exists (resv s). left.
        rewrite (le_max _ _ L1), (le_max _ _ L0) in Hmax. auto.
    - (* extend_n_items *)
      apply wp_fmap. unfold extend_n_items. apply wp_do. apply st_AddResv. intros s s1 L0 G0 L1 G1 Hr Hm.
      pose proof (resv_add _ _ _ G1 Hr) as Hw.
      apply wp_bind. apply wp_buffer; auto.
      + intros tr1 s2 L2 G2 E1 C2. apply wp_bind. apply wp_write_items; auto.
        * intros vs s3 L3 G3 Hl Hf. split; [apply fin_zero|]. split; [|constructor]. exists (resv s), vs.
          split; [assumption|]. split; [reflexivity|]. split; [assumption|]. effs.
        * intros vs m s3 L3 G3 Hl Hf. split; [apply dead_one|]. exists (resv s). right. split; [pose proof (le_cap _ _ L3); lia|]. exists vs.
          split; [assumption|]. split; [effs|assumption].
      + intros s2 L2 G2 Hn Hmax. split; [apply dead_one|]. exists (resv s). left.
        rewrite (le_max _ _ L1), (le_max _ _ L0) in Hmax. auto.
    - (* len *)
      apply wp_fmap. apply wp_len; auto. intros n tr1 s L1 G1 E1 R1. fini. split; [|constructor]. exists n. auto.
    - (* is_empty *)
      apply wp_fmap. unfold vec_is_empty. apply wp_bind. apply wp_len; auto. intros n tr1 s L1 G1 E1 R1.
      fini. split; [|constructor]. exists n. auto.
    - (* capacity *)
      apply wp_fmap. unfold vec_capacity, core_capacity. apply wp_doo. apply st_LoadCap. intros s L1 G1.
      fini. split; [|constructor]. exists (cap s). simpl. auto.
    - (* maximum_capacity *)
      apply wp_fmap. unfold vec_maximum_capacity, core_maximum_capacity. apply wp_doo. apply st_LoadMax. intros s L1 G1.
      fini. split; [|constructor]. simpl. rewrite (le_max _ _ L1). auto.
    - (* get *)
      apply wp_fmap. unfold vec_get. apply wp_bind. apply wp_len; auto. intros n tr1 s L1 G1 E1 R1.
      pose proof R1 as [R2 _]. pose proof (good_wrtn_cap _ _ _ G1).
      destruct (Nat.ltb_spec i n) as [Hi|Hi].
      + apply wp_core_get_in; [lia|]. intros s2 c L2 G2 Hc. fini. split.
        * exists n. destruct (Nat.ltb_spec i n); [|lia]. split; [reflexivity|]. split; [effs|lenr R1].
        * one. apply (le_fill _ _ L2). eapply good_filled_wrtn; eauto. lia.
      + fini. split; [|constructor]. exists n. destruct (Nat.ltb_spec i n); [lia|]. auto.
    - (* index *)
      apply wp_fmap. unfold vec_index, vec_get. apply wp_bind. apply wp_bind. apply wp_len; auto. intros n tr1 s L1 G1 E1 R1.
      pose proof R1 as [R2 _]. pose proof (good_wrtn_cap _ _ _ G1).
      destruct (Nat.ltb_spec i n) as [Hi|Hi].
      + apply wp_core_get_in; [lia|]. intros s2 c L2 G2 Hc. fini. split.
        * exists n. split; [assumption|]. split; [reflexivity|]. split; [effs|lenr R1].
        * one. apply (le_fill _ _ L2). eapply good_filled_wrtn; eauto. lia.
      + split; [apply dead_nil|]. split; [reflexivity|]. split; [assumption|]. exists n. auto.
    - (* get_cloned *)
      apply wp_fmap. unfold vec_get_cloned. apply wp_bind. apply wp_reserved_len. intros n tr1 s L1 G1 E1 C1 R1.
      destruct (Nat.ltb_spec i n) as [Hi|Hi].
      + apply wp_bind. apply wp_core_get_in; [lia|]. intros s2 c L2 G2 Hc.
        apply wp_option_map; auto; [pose proof (le_cap _ _ L2); lia| |].
        * intros v s3 L3 G3 F3. fini. split; [|constructor]. left. exists v. split; [reflexivity|]. effs.
        * intros s3 L3 G3 F3. fini. split; [|constructor]. right. split; [reflexivity|]. split; [effs|].
          right. rewrite !in_app_iff. simpl. auto.
      + fini. split; [|constructor]. right. split; [reflexivity|]. split; [assumption|]. left. exists n. auto.
    - (* get_copied *)
      apply wp_fmap. unfold vec_get_copied, vec_get_cloned. apply wp_bind. apply wp_reserved_len. intros n tr1 s L1 G1 E1 C1 R1.
      destruct (Nat.ltb_spec i n) as [Hi|Hi].
      + apply wp_bind. apply wp_core_get_in; [lia|]. intros s2 c L2 G2 Hc.
        apply wp_option_map; auto; [pose proof (le_cap _ _ L2); lia| |].
        * intros v s3 L3 G3 F3. fini. split; [|constructor]. left. exists v. split; [reflexivity|]. effs.
        * intros s3 L3 G3 F3. fini. split; [|constructor]. right. split; [reflexivity|]. split; [effs|].
          right. rewrite !in_app_iff. simpl. auto.
      + fini. split; [|constructor]. right. split; [reflexivity|]. split; [assumption|]. left. exists n. auto.
    - (* slice *)
      apply wp_fmap. apply wp_slice; auto.
      + intros n p q tr1 s L1 G1 E1 R1 Er Hpq. fini. split.
        * exists n, p, q. auto.
        * pose proof R1 as [R2 _]. constructor; [|constructor]. apply slice_grant; auto. lia.
      + intros n tr1 s L1 G1 E1 R1 Ho Hn. split; [apply dead_nil|]. exists n. split; [assumption|]. split; [reflexivity|]. auto.
    - (* as_slice *)
      apply wp_fmap. apply wp_as_slice; auto. intros n tr1 s L1 G1 E1 R1. fini. split.
      + exists n. auto.
      + pose proof R1 as [R2 _]. constructor; [|constructor]. apply slice_grant; auto. lia.
    - (* iter *)
      apply wp_fmap. apply wp_iter; auto. intros n tr1 s L1 G1 E1 R1 F1. fini. split.
      + exists n. split; [assumption|]. split; auto.
      + now apply frange_elems.
    - (* iter_cloned *)
      apply wp_fmap. unfold vec_iter_cloned. apply wp_bind. apply wp_len; auto. intros n tr1 s L1 G1 E1 R1.
      pose proof R1 as [R2 _]. pose proof (good_wrtn_cap _ _ _ G1).
      apply wp_bind. apply wp_iter_range; [lia|lia|]. intros s2 L2 G2. replace (n - 0) with n by lia.
      apply wp_clone_elems; auto; [apply frange_wrtn with (E := E) (ro := ro); auto; pose proof (le_wrtn _ _ L2); lia|].
      intros vs s3 L3 G3 Hl. fini. split; [|constructor]. exists n. split; [lenr R1|]. exists vs. repeat split; auto. effs.
    - (* swap *)
      assert (Hro : ro = false) by (destruct ro; [discriminate|reflexivity]).
      apply wp_fmap. apply wp_swap; auto. intros b tr1 s L1 G1 P1. fini. split; [|constructor]. exact P1.
    - (* fill *)
      assert (Hro : ro = false) by (destruct ro; [discriminate|reflexivity]).
      apply wp_fmap. unfold vec_fill. apply wp_bind. apply wp_iter; auto. intros n tr1 s L1 G1 E1 R1 F1.
      apply wp_fill_elems; auto.
      intros olds s2 L2 G2 Hl. fini. split; [|constructor]. exists n. split; [lenr R1|]. exists olds. repeat split; auto. effs.
    - (* fill_with *)
      assert (Hro : ro = false) by (destruct ro; [discriminate|reflexivity]).
      apply wp_fmap. unfold vec_fill_with. apply wp_bind. apply wp_iter; auto. intros n tr1 s L1 G1 E1 R1 F1.
      apply wp_fill_elems_with; auto.
      + intros ps s2 L2 G2 Hl Hp. fini. split; [|constructor]. exists n. split; [lenr R1|]. exists ps. repeat split; auto. effs.
      + intros ps s2 L2 G2 Hl Hp. split; [apply dead_nil|]. exists n. split; [lenr R1|]. split; [reflexivity|]. exists ps. repeat split; auto. effs.
    - (* index_of *)
      apply wp_fmap. unfold vec_index_of. apply wp_bind. apply wp_iter; auto. intros n tr1 s L1 G1 E1 R1 F1.
      apply wp_position; auto.
      + intros vs s2 L2 G2 Hl Hx. fini. split; [|constructor]. exists n. split; [lenr R1|]. exists None. split; [reflexivity|].
        exists vs. split; [effs|]. auto.
      + intros vs j s2 L2 G2 Hj Hl Hx. fini. split; [|constructor]. exists n. split; [lenr R1|]. exists (Some j). split; [reflexivity|].
        exists vs. split; [effs|]. auto.
    - (* contains *)
      apply wp_fmap. unfold vec_contains, vec_index_of. apply wp_bind. apply wp_bind. apply wp_iter; auto. intros n tr1 s L1 G1 E1 R1 F1.
      apply wp_position; auto.
      + intros vs s2 L2 G2 Hl Hx. fini. split; [|constructor]. exists n. split; [lenr R1|]. exists None. split; [reflexivity|].
        exists vs. split; [effs|]. auto.
      + intros vs j s2 L2 G2 Hj Hl Hx. fini. split; [|constructor]. exists n. split; [lenr R1|]. exists (Some j). split; [reflexivity|].
        exists vs. split; [effs|]. auto.
    - (* clone_to_vec *)
      apply wp_fmap. unfold vec_clone_to_vec. apply wp_bind. apply wp_as_slice; auto. intros n tr1 s L1 G1 E1 R1.
      pose proof R1 as [R2 _]. pose proof (good_wrtn_cap _ _ _ G1).
      unfold slice_clone_to_vec, slice_iter_cloned. apply wp_bind. apply wp_slice_iter; [simpl; lia|]. simpl. intros s2 L2 G2.
      apply wp_clone_elems; auto; [apply frange_wrtn with (E := E) (ro := ro); auto; pose proof (le_wrtn _ _ L2); lia|].
      intros vs s3 L3 G3 Hl. fini. split; [|constructor]. exists n. split; [lenr R1|]. exists vs. repeat split; auto. effs.
    - (* map *)
      apply wp_fmap. unfold vec_map. apply wp_bind. apply wp_iter; auto. intros n tr1 s L1 G1 E1 R1 F1.
      apply wp_map_elems; auto.
      + intros vs us s2 L2 G2 Hl Hm. fini. split; [|constructor]. exists n. split; [lenr R1|]. exists vs, us. repeat split; auto. effs.
      + intros vs s2 L2 G2 Hl Hs. split; [apply dead_nil|]. exists n. split; [lenr R1|]. split; [reflexivity|]. exists vs. split; [assumption|]. split; [effs|assumption].
    - (* filter *)
      apply wp_fmap. unfold vec_filter. apply wp_bind. apply wp_iter; auto. intros n tr1 s L1 G1 E1 R1 F1.
      apply wp_filter_elems; auto.
      + intros vs bs s2 L2 G2 Hl Hm. fini. split.
        * exists n. split; [lenr R1|]. exists vs, bs. repeat split; auto. effs.
        * eapply frange_pick with (n := n); [eapply frange_le; [|exact F1]; lele|].
          apply (f_equal (@length _)) in Hm. rewrite mapn_length, map_length in Hm. congruence.
      + intros vs s2 L2 G2 Hl Hs. split; [apply dead_nil|]. exists n. split; [lenr R1|]. split; [reflexivity|]. exists vs. split; [assumption|]. split; [effs|assumption].
    - (* fold *)
      apply wp_fmap. unfold vec_fold. apply wp_bind. apply wp_iter; auto. intros n tr1 s L1 G1 E1 R1 F1.
      apply wp_fold_elems; auto.
      + intros vs u s2 L2 G2 Hl Hm. fini. split; [|constructor]. exists n. split; [lenr R1|]. exists vs, u. repeat split; auto. effs.
      + intros vs s2 L2 G2 Hl Hs. split; [apply dead_nil|]. exists n. split; [lenr R1|]. split; [reflexivity|]. exists vs. split; [assumption|]. split; [effs|assumption].
    - (* reduce *)
      apply wp_fmap. unfold vec_reduce. apply wp_bind. apply wp_as_slice; auto. intros n tr1 s L1 G1 E1 R1.
      pose proof R1 as [R2 _]. pose proof (good_wrtn_cap _ _ _ G1).
      unfold slice_reduce. apply wp_bind. apply wp_slice_iter; [simpl; lia|]. cbn [sl_a sl_len]. intros s2 L2 G2.
      assert (F2 : frange s2 0 n) by (apply frange_wrtn with (E := E) (ro := ro); auto; pose proof (le_wrtn _ _ L2); lia).
      destruct n as [|n].
      + fini. split; [|constructor]. exists 0. split; [lenr R1|]. exists [], None. auto.
      + cbn [seq]. apply wp_bind. apply wp_elem_cloned; auto; [eapply frange_hd; eauto|].
        intros v s3 L3 G3 F3. apply wp_bind. apply wp_fold_elems; auto; [eapply frange_tl; eauto| |].
        * intros vs u s4 L4 G4 Hl Hm. fini. split; [|constructor]. exists (S n).
          split; [rewrite <- app_assoc; lenr R1|]. exists (v :: vs), (Some u). simpl.
          repeat split; auto. { effs. } exists u. auto.
        * intros vs s4 L4 G4 Hl. split; [apply dead_nil|]. exists (S n). split; [rewrite <- app_assoc; lenr R1|].
          split; [reflexivity|]. exists (v :: vs). simpl. split; [lia|]. split; [effs|assumption].
    - (* split_at *)
      apply wp_fmap. unfold vec_split_at. apply wp_bind. apply wp_len; auto. intros n tr1 s L1 G1 E1 R1.
      pose proof R1 as [R2 _]. destruct (Nat.leb_spec m n) as [Hm|Hm].
      + apply wp_bind. apply wp_slice_in; auto; [lia|lia|]. intros tr2 s2 L2 G2 E2.
        apply wp_bind. apply wp_slice_from; auto; [pose proof (le_wrtn _ _ L2); lia|].
        intros n3 tr3 s3 L3 G3 E3 R3. pose proof R3 as [R4 _]. replace (m - 0) with m by lia. fini.
        pose proof (le_wrtn _ _ L2). split.
        * exists n3. split; [eapply lenres_weak_l; [| |exact R3]; [pose proof (le_wrtn _ _ L1); lia|lia]|].
          split; [lia|]. split; [reflexivity|]. effs.
        * constructor; [|constructor; [|constructor]]; apply slice_grant; auto; lia.
      + split; [apply dead_nil|]. split; [reflexivity|]. split; [assumption|]. exists n. auto.
    - (* split_first *)
      apply wp_fmap. unfold vec_split_first, vec_get. apply wp_bind. apply wp_bind. apply wp_len; auto. intros n tr1 s L1 G1 E1 R1.
      pose proof R1 as [R2 _]. pose proof (good_wrtn_cap _ _ _ G1).
      destruct (Nat.ltb_spec 0 n) as [Hi|Hi].
      + apply wp_core_get_in; [lia|]. intros s2 c L2 G2 Hc. apply wp_bind. apply wp_len; auto.
        intros n3 tr3 s3 L3 G3 E3 R3. pose proof R3 as [R4 _]. pose proof (le_wrtn _ _ L2).
        apply wp_bind. apply wp_slice_in; auto; [lia|lia|]. intros tr4 s4 L4 G4 E4. pose proof (le_wrtn _ _ L4). fini. split.
        * exists n3. split; [rewrite <- app_assoc; eapply lenres_weak; [| |exact R3]; [pose proof (le_wrtn _ _ L1); lia|lia]|].
          split; [effs|]. destruct n3; [lia|]. replace (S n3 - 1) with n3 by lia. reflexivity.
        * constructor; [|constructor; [|constructor]].
          -- eapply good_filled_wrtn; eauto. lia.
          -- apply slice_grant; auto. lia.
      + fini. split; [|constructor]. exists n. destruct n; [auto|lia].
    - (* split_last *)
      apply wp_fmap. unfold vec_split_last. apply wp_bind. apply wp_len; auto. intros n tr1 s L1 G1 E1 R1.
      pose proof R1 as [R2 _]. destruct n as [|k].
      + fini. split; [|constructor]. exists 0. auto.
      + apply wp_bind. apply wp_slice_in; auto; [lia|lia|]. intros tr2 s2 L2 G2 E2. pose proof (le_wrtn _ _ L2).
        apply wp_bind. unfold vec_index, vec_get. apply wp_bind. apply wp_bind. apply wp_len; auto.
        intros n3 tr3 s3 L3 G3 E3 R3. pose proof R3 as [R4 _]. pose proof (good_wrtn_cap _ _ _ G3).
        destruct (Nat.ltb_spec (S k - 1) n3); [|lia].
        apply wp_core_get_in; [lia|]. intros s4 c L4 G4 Hc. pose proof (le_wrtn _ _ L4).
        replace (S k - 1) with k by lia. replace (k - 0) with k by lia. fini. split.
        * exists (S k). split; [rewrite <- !app_assoc, app_nil_l; lenr R1|]. split; [effs|reflexivity].
        * constructor; [|constructor; [|constructor]].
          -- eapply good_filled_wrtn; eauto. lia.
          -- apply slice_grant; auto. lia.
    - (* chunks *)
      apply wp_fmap. unfold vec_chunks. destruct (Nat.ltb_spec 0 k) as [Hk|Hk].
      + apply wp_bind. apply wp_len; auto. intros n tr1 s L1 G1 E1 R1. pose proof R1 as [R2 _].
        apply wp_vec_chunk_slices; auto.
        { intros ab Hab. apply chunk_ranges_in in Hab; [lia|assumption]. }
        intros tr2 s2 L2 G2 E2. pose proof (le_wrtn _ _ L2). fini. split.
        * exists n. split; [lenr R1|]. split; [assumption|]. split; [reflexivity|]. effs.
        * apply Forall_forall. intros y Hy. apply in_map_iff in Hy. destruct Hy as (z & <- & Hz).
          apply in_map_iff in Hz. destruct Hz as (ab & <- & Hab). apply chunk_ranges_in in Hab; [|assumption].
          apply slice_grant; auto. lia.
      + split; [apply dead_nil|]. simpl. repeat split; auto. lia.
    - (* eq *)
      apply wp_fmap. unfold vec_eq_list. apply wp_bind. apply wp_iter; auto. intros n tr1 s L1 G1 E1 R1 F1.
      apply wp_eq_elems; auto.
      intros vs b s2 L2 G2 Hl Hl' Hb. fini. split; [|constructor]. exists n. split; [lenr R1|]. exists vs, b. repeat split; auto. effs.
    - (* debug *)
      apply wp_fmap. unfold vec_debug. apply wp_bind. apply wp_iter; auto. intros n tr1 s L1 G1 E1 R1 F1.
      apply wp_fmt_elems; auto.
      intros vs s2 L2 G2 Hl. fini. split; [|constructor]. exists n. split; [lenr R1|]. exists vs. repeat split; auto. effs.
    - (* element *)
      apply eop_wp; auto. apply (GR _ eq_refl).
    - (* slice *)
      apply sop_wp; auto.
    - (* get_ref *)
      apply wp_fmap. apply wp_get_ref.
      + intros tr1 s L1 G1 E1 H1 F1. fini. split; [left; auto|]. one. exact F1.
      + intros tr1 s L1 G1 E1 H1. fini. split; [|constructor]. right. auto.
    - (* iter_ref *)
      apply wp_fmap. unfold vec_iter_ref. apply wp_bind. apply wp_reserved_len. intros n tr1 s L1 G1 E1 C1 R1.
      apply wp_bind. apply wp_iter_range; [lia|assumption|]. intros s2 L2 G2. replace (n - 0) with n by lia.
      apply wp_refs; auto; [pose proof (le_cap _ _ L2); lia|].
      intros bs tr2 s3 L3 G3 Hl E2 Hb Hf. fini. split.
      + exists n. split; [rewrite !in_app_iff; tauto|]. exists bs. repeat split; auto; [effs|].
        intros k b Hk. destruct (Hb k b Hk) as (x & X1 & X2). exists x. split; [|assumption]. rewrite in_app_iff. auto.
      + apply Forall_forall. intros y Hy. apply in_map_iff in Hy. destruct Hy as (i & <- & Hi). now apply Hf.
    - (* deref *)
      assert (Hro : ro = true) by (destruct ro; [reflexivity|discriminate]).
      pose proof (GR _ eq_refl) as F. apply wp_fmap. unfold deref. apply wp_do. apply st_RdBeg_ro; auto.
      intros s L1 G1. apply wp_doo. apply st_RdEnd_ro; auto; [now apply (le_fill _ _ L1)|].
      intros v s2 L2 G2. fini. split; [|constructor]. exists v. auto.
    - discriminate.
  Qed.
End Ops.
