(** * How many steps a call makes. *)

From Coq Require Import List Arith Bool Lia.
From Verif.Model Require Import Prog Mem Deps State Elem Vec Excl Machine.
From Verif Require Import Client Spec Fair.
From Verif.Logic Require Import Inv WP Post Specs Ops Sound Shape Clients Hist Locks Facts Complete Trace Stuck Progress Live.
Import ListNotations.
Local Arguments Nat.leb : simpl never.
Local Arguments Nat.ltb : simpl never.
Local Arguments Nat.eqb : simpl never.
Local Arguments Nat.add : simpl never.
Local Arguments Nat.sub : simpl never.
Local Arguments Nat.mul : simpl never.
Local Arguments Nat.max : simpl never.

Section Cost.
  Context {V : Type} (E : env V).
  Notation prog := (prog V).

  (** Program [p] makes at most [n] accesses if capacities and [len_written] are at most [M], and its
      result satisfies [Q]. *)
  Definition limit (M : nat) (a : act V) : res a -> Prop :=
    match a return res a -> Prop with
    | LoadCap => fun y => y <= M
    | LoadWrtn _ => fun y => y <= M
    | _ => fun _ => True
    end.
  Fixpoint within (M n : nat) {R} (p : prog R) (Q : R -> Prop) : Prop :=
    match p with
    | Ret r => Q r
    | Pan _ => True
    | Act a k => 0 < n /\ forall y, limit M a y -> within M (n - 1) (k y) Q
    | Spin a _ k => 0 < n /\ forall y, limit M a y -> within M (n - 1) (k y) Q
    end.

  Lemma within_weak M {R} (p : prog R) (Q Q' : R -> Prop) : forall n n', within M n p Q -> n <= n' -> (forall r, Q r -> Q' r) -> within M n' p Q'.
  Proof.
    induction p as [r|m|a k IH|a ag k IH]; intros n n' H L W; simpl in *; auto;
      destruct H as [H1 H2]; (split; [lia|]); intros y Hy; apply (IH y (n - 1)); auto; lia.
  Qed.
  Lemma within_bind M {A B} (p : prog A) (f : A -> prog B) (Q : A -> Prop) (Q' : B -> Prop) : forall n1 n, within M n1 p Q -> n1 <= n ->
    (forall x, Q x -> within M (n - n1) (f x) Q') -> within M n (bind p f) Q'.
  Proof.
    induction p as [r|m|a k IH|a ag k IH]; intros n1 n H L Hf; simpl in *; auto.
    - apply (within_weak M _ Q' Q' (n - n1)); [auto|lia|auto].
    - destruct H as [H1 H2]. split; [lia|]. intros y Hy. apply (IH y (n1 - 1)); [auto|lia|].
      intros x Hx. replace (n - 1 - (n1 - 1)) with (n - n1) by lia. auto.
    - destruct H as [H1 H2]. split; [lia|]. intros y Hy. apply (IH y (n1 - 1)); [auto|lia|].
      intros x Hx. replace (n - 1 - (n1 - 1)) with (n - n1) by lia. auto.
  Qed.
  Definition any {R} (r : R) : Prop := True.
  Lemma within_chk M n {A} m (o : option A) : within M n (chk m o) (fun x => o = Some x).
  Proof. destruct o; exact I || reflexivity. Qed.
  Lemma within_fmap M n {A B} (f : A -> B) (p : prog A) : within M n p any -> within M n (fmap f p) any.
  Proof. intros H. apply (within_bind M p _ any any n n H (le_n _)). intros; exact I. Qed.
  Lemma within_mapP M n {A B} (f : A -> prog B) l : (forall x, In x l -> within M n (f x) any) -> within M (n * length l) (mapP f l) any.
  Proof.
    induction l as [|x l IH]; intros H; simpl; [exact I|].
    apply (within_bind M _ _ any any n); [apply H; now left|lia|]. intros y _.
    apply (within_bind M _ _ any any (n * length l)); [apply IH; intros; apply H; now right|lia|]. intros; exact I.
  Qed.
  Lemma within_foldP M n {A B} (f : B -> A -> prog B) l : forall i, (forall i x, within M n (f i x) any) -> within M (n * length l) (foldP f i l) any.
  Proof.
    induction l as [|x l IH]; intros i H; simpl; [exact I|].
    apply (within_bind M _ _ any any n); [apply H|lia|]. intros y _. apply (within_weak M _ any any (n * length l)); auto. lia.
  Qed.

  Local Ltac branch p := match p with
    | bind ?q _ => branch q
    | chk _ ?o => destruct o
    | match ?x with _ => _ end => destruct x
    end.
  Local Ltac go := repeat (simpl; match goal with
    | |- _ /\ _ => split; [lia|]
    | |- forall _, _ => intros ?
    | |- True => exact I
    | |- any _ => exact I
    | |- within _ _ ?p _ => branch p
    end).

  Lemma within_option_map M i {U} (f : V -> option U) : within M 4 (option_map i f) any.
  Proof. unfold option_map. go. Qed.
  Lemma within_elem_map M i {U} (f : V -> option U) : within M 4 (elem_map i f) any.
  Proof. unfold elem_map, option_map. go. Qed.
  Lemma within_elem_cloned M i : within M 4 (elem_cloned i) any.
  Proof. unfold elem_cloned, option_clone, option_map. go. Qed.
  Lemma within_elem_set M i v : within M 4 (elem_set i v) any.
  Proof. unfold elem_set, option_set_some. go. Qed.
  Lemma within_eop M i o : within M 4 (eop_prog E i o) any.
  Proof.
    destruct o; unfold eop_prog, fmap, elem_cloned, elem_copied, elem_map, elem_replace, elem_set, elem_update, elem_eq,
      option_clone, option_replace, option_set_some, option_update, elem_map, option_map; go.
  Qed.

  Lemma within_count M k : forall i, within M k (count_pushed (V:=V) i k) (fun n => n <= k).
  Proof.
    induction k as [|k IH]; intros i; [simpl; lia|]. simpl. split; [lia|]. intros y _.
    destruct (st_eqb y SOME); [|simpl; lia]. replace (S k - 1) with k by lia.
    apply (within_bind M _ _ (fun n => n <= k) _ k); [apply IH|lia|]. intros n Hn. simpl. lia.
  Qed.
  Lemma within_len M : within M (M + 5) (vec_len (V:=V)) (fun n => n <= M).
  Proof.
    unfold vec_len. simpl. split; [lia|]. intros n Hn. split; [lia|]. intros c Hc. split; [lia|]. intros r _. split; [lia|]. intros _ _.
    set (u := if r <=? c then r else c). assert (Hu : u <= M) by (unfold u; destruct (Nat.leb_spec r c); lia).
    apply (within_bind M _ _ (fun k => k <= u - n) _ (u - n)); [apply within_count|lia|]. intros k Hk. simpl. split; [lia|]. intros _ _.
    destruct (Nat.le_gt_cases n u); lia.
  Qed.
  Lemma within_reserved M : within M 2 (reserved_len (V:=V)) (fun n => n <= M).
  Proof.
    unfold reserved_len. simpl. split; [lia|]. intros r _. split; [lia|]. intros c Hc. destruct (Nat.leb_spec r c); lia.
  Qed.
  Lemma within_get M i : within M 1 (core_get (V:=V) i) any.
  Proof. unfold core_get. go. Qed.
  Lemma within_iter M : within M (M + 6) (vec_iter (V:=V)) (fun l => length l <= M).
  Proof.
    unfold vec_iter. apply (within_bind M _ _ (fun n => n <= M) _ (M + 5)); [apply within_len|lia|]. intros n Hn.
    simpl. split; [lia|]. intros _ _. rewrite seq_length. lia.
  Qed.
  Lemma within_slice_iter M x : within M 1 (slice_iter (V:=V) x) (fun l => length l = sl_len x).
  Proof. unfold slice_iter. simpl. split; [lia|]. intros _ _. rewrite seq_length. lia. Qed.
  Lemma within_slice M r : within M (M + 5) (vec_slice E r (V:=V)) any.
  Proof.
    unfold vec_slice. apply (within_bind M _ _ (fun n => n <= M) _ (M + 5)); [apply within_len|lia|]. intros n Hn. go.
  Qed.
  Lemma within_as_slice M : within M (2 * (M + 5)) (vec_as_slice E (V:=V)) (fun x => sl_len x <= M).
  Proof.
    unfold vec_as_slice. apply (within_bind M _ _ (fun n => n <= M) _ (M + 5)); [apply within_len|lia|]. intros n Hn.
    unfold vec_slice. apply (within_bind M _ _ (fun n => n <= M) _ (M + 5)); [apply within_len|lia|]. intros n' Hn'.
    unfold range_limits. simpl. unfold usub. simpl. destruct (Nat.leb_spec 0 (Nat.min n n')); [|lia]. simpl. lia.
  Qed.
  Lemma within_vget M i : within M (M + 6) (vec_get (V:=V) i) any.
  Proof.
    unfold vec_get. apply (within_bind M _ _ (fun n => n <= M) _ (M + 5)); [apply within_len|lia|]. intros n Hn.
    destruct (i <? n); [|exact I]. apply (within_weak M _ any any 1); [apply within_get|lia|auto].
  Qed.
  Lemma within_index M i : within M (M + 6) (vec_index (V:=V) i) any.
  Proof.
    unfold vec_index. apply (within_bind M _ _ any _ (M + 6)); [apply within_vget|lia|]. intros o _. go.
  Qed.
  Lemma within_handle M i s : within M (M + 7) (vec_mut_handle E (V:=V) i s) any.
  Proof.
    unfold vec_mut_handle. apply (within_bind M _ _ (fun n => n <= M) _ (M + 5)); [apply within_len|lia|]. intros n Hn.
    destruct (i <? n); [|exact I]. simpl. split; [lia|]. intros c _. destruct (i <? c); [|exact I].
    unfold option_mut_handle. destruct (hspin E); go.
  Qed.
  Lemma within_swap M i j : within M (2 * M + 20) (vec_swap E (V:=V) i j) any.
  Proof.
    unfold vec_swap. apply (within_bind M _ _ any _ (M + 7)); [apply within_handle|lia|]. intros hi _.
    apply (within_bind M _ _ any _ (M + 7)); [apply within_handle|lia|]. intros hj _. destruct hi, hj; go.
  Qed.

  (** loops over elements *)
  Lemma within_fill_with M l : forall k f, within M (4 * length l) (fill_elems_with (V:=V) k l f) any.
  Proof.
    induction l as [|e l IH]; intros k f; simpl; [exact I|]. destruct (f k) as [v|]; simpl; [|exact I].
    apply (within_bind M (elem_set e v) _ any _ 4); [apply within_elem_set|lia|]. intros _ _.
    apply (within_weak M _ any any (4 * length l)); [apply IH|lia|auto].
  Qed.
  Lemma within_position M l : forall k v, within M (4 * length l) (position E k l v) any.
  Proof.
    induction l as [|e l IH]; intros k v; simpl; [exact I|].
    apply (within_bind M (elem_eq E e v) _ any _ 4); [apply within_elem_map|lia|]. intros b _. destruct b; [exact I|].
    apply (within_weak M _ any any (4 * length l)); [apply IH|lia|auto].
  Qed.
  Lemma within_map_elems {U} M l : forall f : nat -> V -> option U, within M (4 * length l) (map_elems l f) any.
  Proof.
    induction l as [|e l IH]; intros f; cbn [map_elems length]; [exact I|].
    apply (within_bind M (elem_map e (f 0)) _ any _ 4); [apply within_elem_map|lia|]. intros b _.
    apply (within_bind M _ _ any _ (4 * length l)); [apply IH|lia|]. intros; exact I.
  Qed.
  Lemma within_fold_elems {U} M l : forall (u : U) f, within M (4 * length l) (fold_elems (V:=V) l u f) any.
  Proof.
    induction l as [|e l IH]; intros u f; cbn [fold_elems length]; [exact I|].
    apply (within_bind M (elem_map e (fun x => f 0 u x)) _ any _ 4); [apply within_elem_map|lia|]. intros b _.
    apply (within_weak M _ any any (4 * length l)); [apply IH|lia|auto].
  Qed.
  Lemma within_filter M l : forall f, within M (4 * length l) (filter_elems (V:=V) l f) any.
  Proof.
    induction l as [|e l IH]; intros f; simpl; [exact I|].
    apply (within_bind M (elem_map e (f 0)) _ any _ 4); [apply within_elem_map|lia|]. intros b _.
    apply (within_bind M _ _ any _ (4 * length l)); [apply IH|lia|]. intros; exact I.
  Qed.
  Lemma within_eq M l : forall vs, within M (4 * length l) (eq_elems_list E l vs) any.
  Proof.
    induction l as [|e l IH]; intros vs; destruct vs; cbn [eq_elems_list length]; try exact I.
    apply (within_bind M (option_map e _) _ any _ 4); [apply within_option_map|lia|]. intros [[]|] _; try exact I.
    apply (within_weak M _ any any (4 * length l)); [apply IH|lia|auto].
  Qed.
  Lemma within_refs M l : within M (length l) (refs_of (V:=V) l) any.
  Proof.
    induction l as [|e l IH]; simpl; [exact I|]. split; [lia|]. intros y _.
    apply (within_bind M _ _ any _ (length l)); [apply IH|lia|]. intros; exact I.
  Qed.
  Lemma within_fmt M l : within M (4 * length l) (fmt_elems (V:=V) l) any.
  Proof.
    destruct l as [|e l]; [exact I|]. unfold fmt_elems.
    apply (within_bind M (elem_map e _) _ any _ 4); [apply within_elem_map|simpl; lia|]. intros x _.
    apply (within_bind M _ _ any _ (4 * length l)); [apply within_mapP; intros; apply within_elem_map|simpl; lia|]. intros; exact I.
  Qed.
  Lemma within_reduce_tail M l (f : nat -> V -> V -> option V) : within M (4 * length l)
    (match l with
     | [] => Ret None
     | first :: rest => bind (elem_cloned first) (fun agg => bind (fold_elems rest agg f) (fun r => Ret (Some r)))
     end) any.
  Proof.
    destruct l as [|e l]; [exact I|].
    apply (within_bind M (elem_cloned e) _ any _ 4); [apply within_elem_cloned|simpl; lia|]. intros x _.
    apply (within_bind M _ _ any _ (4 * length l)); [apply within_fold_elems|simpl; lia|]. intros; exact I.
  Qed.
  Lemma within_write M n : forall i it, within M (3 * n) (write_items (V:=V) i n it) any.
  Proof.
    induction n as [|n IH]; intros i it; simpl; [exact I|]. destruct it as [|[v|] it]; simpl; try exact I.
    split; [lia|]. intros _ _. split; [lia|]. intros _ _. split; [lia|]. intros _ _.
    apply (within_weak M _ any any (3 * n)); [apply IH|lia|auto].
  Qed.
  Lemma within_single M i : within M 4 (single_item_as_ref (V:=V) i) any.
  Proof.
    unfold single_item_as_ref. simpl. split; [lia|]. intros m _. destruct (i <? m); [|exact I]. simpl. split; [lia|]. intros c _.
    destruct (write_permit i c); try exact I. unfold grow_to. go.
  Qed.
  Lemma within_buffer M b n : within M 4 (n_items_buffer E b n) any.
  Proof.
    unfold n_items_buffer. destruct (n =? 0); [exact I|]. destruct (uadd E b n) as [e|]; [|exact I]. simpl.
    destruct (usub E e 1) as [l|]; [|exact I]. simpl. split; [lia|]. intros m _. destruct (l <? m); [|exact I]. simpl. split; [lia|]. intros c _.
    destruct (write_permit_n_items b l c); try exact I. unfold grow_to. go.
  Qed.

  Lemma chunk_count len k : 0 < k -> length (chunk_ranges len k) <= len.
  Proof.
    intros Hk. unfold chunk_ranges. rewrite map_length, seq_length.
    pose proof (Nat.div_mod len k ltac:(lia)) as D. pose proof (Nat.mod_upper_bound len k ltac:(lia)) as B.
    destruct (Nat.ltb_spec 0 (len - len / k * k)) as [H|H].
    - assert (len / k <= k * (len / k)) by (destruct k; [lia|]; lia). nia.
    - nia.
  Qed.

  Definition cost1 (o : op V) (M : nat) : nat := cost o M - 1.
  Local Ltac over l := apply (within_bind _ l _ (fun x => length x <= _) _ (_ + 6)); [apply within_iter|lia|].

  Lemma op_within M o : within M (cost1 o M) (op_prog E o) any.
  Proof.
    assert (IT : forall (R : Type) (f : list nat -> prog R), (forall l, within M (4 * length l) (f l) any) ->
      within M (6 * M + 20) (bind vec_iter f) any).
    { intros R f Hf. apply (within_bind M _ _ (fun l => length l <= M) _ (M + 6)); [apply within_iter|lia|]. intros l Hl.
      apply (within_weak M _ any any (4 * length l)); [apply Hf|lia|auto]. }
    assert (SI : forall (R : Type) x (f : list nat -> prog R), (forall l, within M (4 * length l) (f l) any) ->
      within M (4 * sl_len x + 2 * M + 20) (bind (slice_iter x) f) any).
    { intros R x f Hf. apply (within_bind M _ _ (fun l => length l = sl_len x) _ 1); [apply within_slice_iter|lia|]. intros l Hl.
      apply (within_weak M _ any any (4 * length l)); [apply Hf|lia|auto]. }
    assert (W : forall n (R : Type) (p : prog R) n', within M n p any -> n <= n' -> within M n' p any).
    { intros n R p n' H L. eapply within_weak; eauto. }
    assert (W' : forall n (R : Type) (p : prog R) Q n', within M n p Q -> n <= n' -> within M n' p any).
    { intros n R p Q n' H L. eapply within_weak; eauto. intros; exact I. }
    destruct o as [v|f|k it|f k|it k| | | | |i|i|i|i|r| | | |i j|v|f|v|v| |f|f|v f|f|m| | |k|l| |i o|x o|i| |i|i f]; cbn [op_prog]; unfold cost1, cost; cbn [request].
    all: try match goal with |- within _ (?n + ?k - 1) _ _ => replace (n + k - 1) with (n + (k - 1)) by lia; cbv [Nat.sub] end.
    all: try apply within_fmap.
    - unfold push. simpl. split; [lia|]. intros b _.
      apply (within_bind M (single_item_as_ref b) _ any _ 4); [apply within_single|lia|]. intros _ _. go.
    - unfold push_for_idx. simpl. split; [lia|]. intros b _. destruct (f b) as [v|]; [|exact I]. simpl.
      apply (within_bind M (single_item_as_ref b) _ any _ 4); [apply within_single|lia|]. intros _ _. go.
    - unfold extend, extend_n_items. simpl. split; [lia|]. intros b _.
      apply (within_bind M (n_items_buffer E b k) _ any _ 4); [apply within_buffer|lia|]. intros _ _.
      apply (within_bind M (write_items b k it) _ any _ (3 * k)); [apply within_write|lia|]. intros; exact I.
    - unfold extend_for_idx. simpl. split; [lia|]. intros b _.
      apply (within_bind M (n_items_buffer E b k) _ any _ 4); [apply within_buffer|lia|]. intros _ _.
      destruct (f b) as [[m it]|]; [|exact I]. simpl. destruct (m =? k); [|exact I].
      apply (within_bind M (write_items b k it) _ any _ (3 * k)); [apply within_write|lia|]. intros; exact I.
    - unfold extend_n_items. simpl. split; [lia|]. intros b _.
      apply (within_bind M (n_items_buffer E b k) _ any _ 4); [apply within_buffer|lia|]. intros _ _.
      apply (within_bind M (write_items b k it) _ any _ (3 * k)); [apply within_write|lia|]. intros; exact I.
    - eapply W'; [apply within_len|lia].
    - unfold vec_is_empty. apply (within_bind M _ _ (fun n => n <= M) _ (M + 5)); [apply within_len|lia|]. intros; exact I.
    - unfold vec_capacity. go.
    - unfold vec_maximum_capacity. go.
    - eapply W; [apply within_vget|lia].
    - eapply W; [apply within_index|lia].
    - unfold vec_get_cloned. apply (within_bind M _ _ (fun n => n <= M) _ 2); [apply within_reserved|lia|]. intros n Hn.
      destruct (i <? n); [|exact I]. apply (within_bind M _ _ any _ 1); [apply within_get|lia|]. intros [e|] _; [|exact I].
      eapply W; [apply within_option_map|lia].
    - unfold vec_get_copied, vec_get_cloned. apply (within_bind M _ _ (fun n => n <= M) _ 2); [apply within_reserved|lia|]. intros n Hn.
      destruct (i <? n); [|exact I]. apply (within_bind M _ _ any _ 1); [apply within_get|lia|]. intros [e|] _; [|exact I].
      eapply W; [apply within_option_map|lia].
    - eapply W; [apply within_slice|lia].
    - eapply W'; [apply within_as_slice|lia].
    - eapply W'; [apply within_iter|lia].
    - unfold vec_iter_cloned. apply (within_bind M _ _ (fun n => n <= M) _ (M + 5)); [apply within_len|lia|]. intros n Hn.
      simpl. split; [lia|]. intros _ _. eapply W; [apply within_mapP; intros; apply within_elem_cloned|rewrite seq_length; lia].
    - eapply W; [apply within_swap|lia].
    - apply IT. intros l. apply within_foldP. intros. apply within_elem_set.
    - apply IT. intros l. apply within_fill_with.
    - apply IT. intros l. apply within_position.
    - unfold vec_contains. apply (within_bind M _ _ any _ (6 * M + 20)); [|lia|intros; exact I]. apply IT. intros l. apply within_position.
    - unfold vec_clone_to_vec. apply (within_bind M _ _ (fun x => sl_len x <= M) _ (2 * (M + 5))); [apply within_as_slice|lia|]. intros x Hx.
      unfold slice_clone_to_vec, slice_iter_cloned. apply (within_bind M _ _ (fun l => length l = sl_len x) _ 1); [apply within_slice_iter|lia|]. intros l Hl.
      eapply W; [apply within_mapP; intros; apply within_elem_cloned|lia].
    - apply IT. intros l. apply within_map_elems.
    - apply IT. intros l. apply within_filter.
    - apply IT. intros l. apply within_fold_elems.
    - unfold vec_reduce. apply (within_bind M _ _ (fun x => sl_len x <= M) _ (2 * (M + 5))); [apply within_as_slice|lia|]. intros x Hx.
      unfold slice_reduce. apply (within_bind M _ _ (fun l => length l = sl_len x) _ 1); [apply within_slice_iter|lia|]. intros l Hl.
      eapply W; [apply within_reduce_tail|lia].
    - unfold vec_split_at. apply (within_bind M _ _ (fun n => n <= M) _ (M + 5)); [apply within_len|lia|]. intros n Hn.
      destruct (m <=? n); [|exact I]. apply (within_bind M _ _ any _ (M + 5)); [apply within_slice|lia|]. intros y _.
      apply (within_bind M _ _ any _ (M + 5)); [apply within_slice|lia|]. intros; exact I.
    - unfold vec_split_first. apply (within_bind M _ _ any _ (M + 6)); [apply within_vget|lia|]. intros [a|] _; [|exact I].
      apply (within_bind M _ _ (fun n => n <= M) _ (M + 5)); [apply within_len|lia|]. intros n Hn.
      apply (within_bind M _ _ any _ (M + 5)); [apply within_slice|lia|]. intros; exact I.
    - unfold vec_split_last. apply (within_bind M _ _ (fun n => n <= M) _ (M + 5)); [apply within_len|lia|]. intros n Hn.
      destruct n as [|n]; [exact I|]. apply (within_bind M _ _ any _ (M + 5)); [apply within_slice|lia|]. intros y _.
      apply (within_bind M _ _ any _ (M + 6)); [apply within_index|lia|]. intros; exact I.
    - unfold vec_chunks. destruct (Nat.ltb_spec 0 k) as [Hk|]; [|exact I].
      apply (within_bind M _ _ (fun n => n <= M) _ (M + 5)); [apply within_len|nia|]. intros n Hn.
      pose proof (chunk_count n k Hk). eapply W; [apply within_mapP; intros; apply within_slice|nia].
    - apply IT. intros l'. apply within_eq.
    - apply IT. intros l. apply within_fmt.
    - eapply W; [apply within_eop|lia].
    - destruct o as [i|i|i|r| | |i j|v|f|v|v| |f|f|v f|f|m| | |k|l| |i| ]; cbn [sop_prog]; apply within_fmap.
      + unfold slice_get. destruct (i <? sl_len x); [|exact I]. eapply W; [apply within_get|lia].
      + unfold slice_index, slice_get. destruct (i <? sl_len x); [|exact I]. apply (within_bind M _ _ any _ 1); [apply within_get|lia|]. intros o _. go.
      + unfold slice_get_cloned. destruct (i <? sl_len x); [|exact I]. apply (within_bind M _ _ any _ 1); [apply within_get|lia|]. intros [e|] _; [|exact I].
        apply (within_bind M _ _ any _ 4); [apply within_elem_cloned|lia|]. intros; exact I.
      + unfold slice_slice. go.
      + eapply W'; [apply within_slice_iter|lia].
      + apply SI. intros l. apply within_mapP. intros. apply within_elem_cloned.
      + unfold slice_swap. destruct (slice_idx x i); [|exact I]. destruct (slice_idx x j); [|exact I]. eapply W; [apply within_swap|lia].
      + apply SI. intros l. apply within_foldP. intros. apply within_elem_set.
      + apply SI. intros l. apply within_fill_with.
      + apply SI. intros l. apply within_position.
      + unfold slice_contains. apply (within_bind M _ _ any _ (4 * sl_len x + 2 * M + 20)); [|lia|intros; exact I]. apply SI. intros l. apply within_position.
      + apply SI. intros l. apply within_mapP. intros. apply within_elem_cloned.
      + apply SI. intros l. apply within_map_elems.
      + apply SI. intros l. apply within_filter.
      + apply SI. intros l. apply within_fold_elems.
      + apply SI. intros l. apply within_reduce_tail.
      + unfold slice_split_at, slice_slice. go.
      + unfold slice_split_first, slice_get. destruct (0 <? sl_len x); [|exact I]. apply (within_bind M _ _ any _ 1); [apply within_get|lia|].
        intros [a|] _; [|exact I]. unfold slice_slice. go.
      + unfold slice_split_last. destruct (sl_len x) as [|n]; [exact I|]. unfold slice_slice, slice_index, slice_get. go.
      + unfold slice_chunks. destruct (0 <? k); [|exact I].
        eapply W; [apply (within_mapP M 0); intros; unfold slice_slice; go|lia].
      + apply SI. intros l'. apply within_eq.
      + apply SI. intros l. apply within_fmt.
      + unfold slice_get_ref. destruct (slice_idx x i) as [j|]; [|exact I]. unfold vec_get_ref.
        apply (within_bind M _ _ (fun n => n <= M) _ 2); [apply within_reserved|lia|]. intros n Hn.
        destruct (j <? n); [|exact I]. apply (within_bind M _ _ any _ 1); [apply within_get|lia|]. intros [e|] _; go.
      + apply SI. intros l. eapply W; [apply within_refs|lia].
    - unfold vec_get_ref. apply (within_bind M _ _ (fun n => n <= M) _ 2); [apply within_reserved|lia|]. intros n Hn.
      destruct (i <? n); [|exact I]. apply (within_bind M _ _ any _ 1); [apply within_get|lia|]. intros [e|] _; go.
    - unfold vec_iter_ref. apply (within_bind M _ _ (fun n => n <= M) _ 2); [apply within_reserved|lia|]. intros n Hn.
      simpl. split; [lia|]. intros _ _. eapply W; [apply within_refs|rewrite seq_length; lia].
    - unfold deref. go.
    - unfold deref_mut. go.
  Qed.
End Cost.

Section Count.
  Context {V : Type} (E : env V) (ro nl : bool) (l0 : list V) (c0 m0 : nat).
  Notation execution := (execution E ro nl l0 c0 m0).
  Implicit Types (c : cfg V) (p : prog V (ret V)).
  Notation a0 := (abs0 l0 m0).
  Notation P := (client E ro nl (length l0)).

  (** a running call has at most [n] accesses to make *)
  Definition left c t x n : Prop := lookup t (run c) = Some x /\ within (maxc (sh c)) n (c_prog x) any.

  Lemma max_same c l c' : step E c l = Next c' -> run c <> [] -> maxc (sh c') = maxc (sh c).
  Proof.
    intros S R.
    assert (A : forall t (a : act V) y s' l, exec E t a (sh c) = Done y s' l -> maxc s' = maxc (sh c)).
    { intros t a y s' l' H. destruct a; simpl in H; unfold with_slot in H;
        repeat match goal with
               | H : context [if ?b then _ else _] |- _ => let Q := fresh "Q" in destruct b eqn:Q
               | H : context [match ?b with _ => _ end] |- _ => let Q := fresh "Q" in destruct b eqn:Q
               end; try discriminate; injection H as <- <- <-; reflexivity. }
    destruct l as [t o|t| |k]; simpl in S.
    - destruct (lookup t (run c)) eqn:Lk; [discriminate|]. destruct (has_grant o (given c)); [|discriminate]. now injection S as <-.
    - unfold step_thread in S. destruct (lookup t (run c)) as [y|] eqn:Lk; [|discriminate].
      destruct (c_prog y) as [r|m'|a k|a ag k] eqn:Hp.
      + now injection S as <-.
      + now injection S as <-.
      + destruct (exec E t a (sh c)) eqn:Ex; [|discriminate]. injection S as <-. simpl. eapply A; eauto.
      + destruct (exec E t a (sh c)) eqn:Ex; [|discriminate]. destruct (ag x); injection S as <-; simpl; [reflexivity|]. eapply A; eauto.
    - destruct (run c); [contradiction|discriminate].
    - destruct (run c); [contradiction|discriminate].
  Qed.

  Lemma own_left c c' t x n : execution c -> left c t x n -> step E c (LStep t) = Next c' -> c' <> c ->
    (exists q, left c' t (Call (c_id x) (c_op x) q) (n - 1) /\ 0 < n) \/ ended (hist c') (c_id x).
  Proof.
    intros X [Lk Wi] S Ne. pose proof (exec_nodup E ro nl l0 c0 m0 c X) as Nd.
    assert (Rn : run c <> []) by (intros R; rewrite R in Lk; discriminate).
    pose proof (max_same c _ c' S Rn) as Mx.
    destruct (execution_world _ _ _ _ _ _ c X) as (snap & g & W).
    pose proof (gi_inv _ _ _ _ _ _ _ _ (w_gi _ _ _ _ _ _ _ _ W)) as Iv.
    assert (L : forall (a : act V) y s' l, exec E t a (sh c) = Done y s' l -> limit (maxc (sh c)) a y).
    { intros a y s' l H. pose proof (ok_le _ (proj1 X) _ _ (i_cap _ _ _ _ Iv)) as Lc.
      destruct a; simpl; try exact Logic.I; simpl in H; injection H as <- _ _; [|exact Lc].
      pose proof (good_wrtn_cap E ro (sh c) (ex_intro _ g Iv)). lia. }
    simpl in S. unfold step_thread in S. rewrite Lk in S.
    destruct (c_prog x) as [r|m'|a k|a ag k] eqn:Hp.
    - injection S as <-. right. simpl. eexists. split; [apply in_or_app; right; left; reflexivity|simpl; apply Nat.eqb_refl].
    - injection S as <-. right. simpl. eexists. split; [apply in_or_app; right; left; reflexivity|simpl; apply Nat.eqb_refl].
    - destruct (exec E t a (sh c)) as [y s' l|] eqn:Ex; [|discriminate]. injection S as <-. left. destruct Wi as [Hn Wi]. exists (k y). split; [|assumption].
      split; [now rewrite after_lookup, Nat.eqb_refl by assumption|]. rewrite Mx. simpl. apply Wi. eapply L; eauto.
    - destruct (exec E t a (sh c)) as [y s' l|] eqn:Ex; [|discriminate]. destruct (ag y) eqn:Ag; [injection S as <-; contradiction|].
      injection S as <-. left. destruct Wi as [Hn Wi]. exists (k y). split; [|assumption].
      split; [now rewrite after_lookup, Nat.eqb_refl by assumption|]. rewrite Mx. simpl. apply Wi. eapply L; eauto.
  Qed.
  Lemma other_left c l c' t x n : execution c -> left c t x n -> step E c l = Next c' -> l <> LStep t -> left c' t x n.
  Proof.
    intros X [Lk Wi] S N. split; [eapply (other_step E ro nl l0 c0 m0 c l); eauto|].
    rewrite (max_same c l c' S); [assumption|]. intros R. rewrite R in Lk. discriminate.
  Qed.

  (** every running call has at most as many accesses to make as its cost *)
  Lemma all_left c : execution c -> forall t x, lookup t (run c) = Some x -> left c t x (cost (c_op x) (maxc (sh c)) - 1).
  Proof.
    intros (X1 & X2 & X3 & X4 & R). induction R as [|c l c' R IH C S]; [intros t x H; discriminate|].
    assert (X : execution c) by (repeat (split; [assumption|]); assumption).
    intros u z Lz.
    assert (Old : forall y, lookup u (run c) = Some y -> left c' u z (cost (c_op z) (maxc (sh c')) - 1)).
    { intros y Ly. assert (Rn : run c <> []) by (intros Q; rewrite Q in Ly; discriminate).
      pose proof (max_same c l c' S Rn) as Mx. pose proof (IH u y Ly) as Hy.
      destruct (match l with LStep w => w =? u | _ => false end) eqn:B.
      - destruct l as [|w| |]; try discriminate. apply Nat.eqb_eq in B. subst w.
        destruct (move_or_wait E ro nl l0 c0 m0 c u y X Ly) as [S'|(d & Sd & Ne)].
        + assert (c' = c) by congruence. subst c'. rewrite Lz in Ly. injection Ly as <-. exact Hy.
        + assert (d = c') by congruence. subst d.
          destruct (move_inv E c u y c' (exec_nodup E ro nl l0 c0 m0 c X) Ly S Ne) as [_ [(q & l & Lq & _ & _)|[L _]]]; [|congruence].
          destruct (own_left c c' u y _ X Hy S Ne) as [(q' & [Lq' Wq'] & _)|D].
          * rewrite Lz in Lq'. injection Lq' as ->. split; [assumption|]. simpl. rewrite <- Mx in Wq'.
            eapply within_weak; [exact Wq'|lia|auto].
          * exfalso. assert (X' : execution c') by (eapply execution_step; eauto).
            rewrite Lz in Lq. injection Lq as ->. pose proof (run_open E ro nl l0 c0 m0 c' u _ X' Lz) as O. simpl in O. eapply ended_open; eauto.
      - assert (Nl : l <> LStep u). { intros ->. rewrite Nat.eqb_refl in B. discriminate. }
        assert (z = y). { pose proof (other_step E ro nl l0 c0 m0 c l c' u y X Ly S Nl) as Q. congruence. }
        subst z. rewrite Mx. exact (other_left c l c' u y _ X Hy S Nl). }
    destruct (lookup u (run c)) as [y|] eqn:Ly; [eapply Old; eauto|].
    destruct l as [t o|t| |k]; simpl in S.
    - destruct (lookup t (run c)) eqn:Lk; [discriminate|]. destruct (has_grant o (given c)); [|discriminate]. injection S as <-.
      simpl in Lz. destruct (Nat.eqb_spec u t) as [e|]; [|congruence]. injection Lz as <-. split.
      + subst u. simpl. now rewrite Nat.eqb_refl.
      + simpl. apply (op_within E).
    - exfalso. destruct (Nat.eq_dec t u) as [->|Nt].
      + unfold step_thread in S. rewrite Ly in S. discriminate.
      + assert (Q : lookup u (run c') = lookup u (run c)); [|congruence].
        unfold step_thread in S. destruct (lookup t (run c)) as [y|] eqn:Lk; [|discriminate].
        pose proof (exec_nodup E ro nl l0 c0 m0 c X) as Nd.
        assert (R1 : lookup u (remove t (run c)) = lookup u (run c)) by (rewrite lookup_remove_other; congruence).
        assert (A : forall p s l, lookup u (run (after t c y p s l)) = lookup u (run c)).
        { intros p s l. rewrite after_lookup by assumption. destruct (Nat.eqb_spec u t); [congruence|reflexivity]. }
        destruct (c_prog y) as [r|m'|a k|a ag k] eqn:Hp.
        * injection S as <-. exact R1.
        * injection S as <-. exact R1.
        * destruct (exec E t a (sh c)) eqn:Ex; [|discriminate]. injection S as <-. apply A.
        * destruct (exec E t a (sh c)) eqn:Ex; [|discriminate]. destruct (ag x) eqn:Ag; injection S as <-; [reflexivity|apply A].
    - exfalso. destruct (run c) eqn:Rc; [|discriminate]. destruct (clear (sh c)); try discriminate; injection S as <-; [|rewrite Rc in Lz]; discriminate.
    - exfalso. destruct (run c) eqn:Rc; [|discriminate]. destruct (reserve_maximum_capacity E k (sh c)) as [[]| |]; try discriminate; injection S as <-; [|rewrite Rc in Lz]; discriminate.
  Qed.

  (** ... so it ends after as many steps that are not rounds of a busy-wait *)
  Lemma left_ends c t x n k c' : execution c -> left c t x n -> work E P t c k c' -> n < k -> ended (hist c') (c_id x).
  Proof.
    intros X Hl Wk. revert x n X Hl. induction Wk as [c|c l d k c' C S D Wk IH|c d k c' C S Ne Wk IH]; intros x n X Hl Lt.
    - lia.
    - assert (Xd : execution d) by (eapply execution_step; eauto). apply (IH x n Xd); [|assumption].
      destruct D as [D|D]; [exact (other_left c l d t x n X Hl S D)|now rewrite D].
    - assert (Xd : execution d) by (eapply execution_step; eauto).
      destruct (own_left c d t x n X Hl S Ne) as [(q & Hq & Hn)|D].
      + apply (IH _ (n - 1) Xd Hq). lia.
      + clear IH Hl. destruct D as (e & He & Hd). exists e. split; [|assumption].
        clear - Wk He. induction Wk as [c|c l d k c' C S D Wk IH|c d k c' C S Ne Wk IH]; [assumption| |];
          apply IH; destruct (step_hist E _ _ _ S) as [->|(e' & ->)]; try assumption; apply in_or_app; auto.
  Qed.

  Lemma path_hist c ls c' : path E P c ls c' -> exists h', hist c' = hist c ++ h'.
  Proof.
    revert c. induction ls as [|l ls IH]; intros c Hp; simpl in Hp.
    - subst c'. exists []. now rewrite app_nil_r.
    - destruct Hp as [_ (d & S & Hp)]. destruct (IH d Hp) as (h' & ->). destruct (step_hist E _ _ _ S) as [->|(e & ->)]; [eauto|].
      rewrite <- app_assoc. eauto.
  Qed.
  Lemma path_ended c ls c' id : path E P c ls c' -> ended (hist c) id -> ended (hist c') id.
  Proof. intros H (e & H1 & H2). destruct (path_hist _ _ _ H) as (h' & ->). exists e. split; [apply in_or_app; auto|assumption]. Qed.
  Lemma path_snoc c ls d l e : path E P c ls d -> P d l -> step E d l = Next e -> path E P c (ls ++ [l]) e.
  Proof.
    revert c. induction ls as [|l' ls IH]; intros c Hp C S; simpl in Hp |- *.
    - subst d. split; [assumption|]. exists e. split; [assumption|reflexivity].
    - destruct Hp as [C' (d' & S' & Hp)]. split; [assumption|]. exists d'. split; [assumption|]. now apply IH.
  Qed.
  (** ... and if it never waits, after as many steps of its own *)
  Lemma path_ends t ls : forall c x n c', execution c -> left c t x n -> path E P c ls c' ->
    (forall d ls', path E P c ls' d -> execution d -> open (hist d) (c_id x) t (c_op x) -> step E d (LStep t) <> Next d) ->
    n < steps_of t ls -> ended (hist c') (c_id x).
  Proof.
    induction ls as [|l ls IH]; intros c x n c' X Hl Hp Nw Lt; [unfold steps_of in Lt; simpl in Lt; lia|].
    destruct Hp as [C (d & S & Hp)]. assert (Xd : execution d) by (eapply execution_step; eauto).
    assert (Nw' : forall d0 ls', path E P d ls' d0 -> execution d0 -> open (hist d0) (c_id x) t (c_op x) -> step E d0 (LStep t) <> Next d0).
    { intros d0 ls' H. apply (Nw d0 (l :: ls')). split; [assumption|]. eauto. }
    destruct (match l with LStep w => w =? t | _ => false end) eqn:B.
    - destruct l as [|w| |]; try discriminate. apply Nat.eqb_eq in B. subst w.
      assert (Ne : d <> c).
      { intros ->. apply (Nw c [] eq_refl X); [|assumption]. apply (run_open E ro nl l0 c0 m0 c t x X). apply Hl. }
      destruct (own_left c d t x n X Hl S Ne) as [(q & Hq & Hn)|D].
      + apply (IH d (Call (c_id x) (c_op x) q) (n - 1) c'); auto.
        unfold steps_of in *. simpl in Lt. rewrite Nat.eqb_refl in Lt. simpl in Lt. lia.
      + eapply path_ended; eauto.
    - assert (Nl : l <> LStep t). { intros ->. rewrite Nat.eqb_refl in B. discriminate. }
      apply (IH d x n c'); auto; [exact (other_left c l d t x n X Hl S Nl)|].
      unfold steps_of in *. simpl in Lt. destruct l as [|w| |]; try assumption. rewrite B in Lt. assumption.
  Qed.
  Lemma path_cap c ls c' : execution c -> path E P c ls c' -> cap (sh c) <= cap (sh c').
  Proof.
    revert c. induction ls as [|l ls IH]; intros c X Hp; simpl in Hp.
    - subst c'. lia.
    - destruct Hp as [C (d & S & Hp)]. pose proof (cap_up E ro nl l0 c0 m0 c l d X S).
      assert (Xd : execution d) by (eapply execution_step; eauto). pose proof (IH d Xd Hp). lia.
  Qed.
End Count.
