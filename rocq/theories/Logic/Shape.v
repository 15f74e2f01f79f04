(** * Which accesses occur in the program of a method. *)

From Coq Require Import List Arith Bool Lia.
From Verif.Model Require Import Prog Mem Deps State Elem Vec Excl Machine.
From Verif Require Import Client.
Import ListNotations.
Local Arguments Nat.leb : simpl never.
Local Arguments Nat.ltb : simpl never.
Local Arguments Nat.eqb : simpl never.
Local Arguments Nat.add : simpl never.
Local Arguments Nat.sub : simpl never.

Section Shape.
  Context {V : Type} (E : env V).
  Notation prog := (prog V).

  (** All accesses of the program satisfy [P], all its results satisfy [Q]. *)
  Fixpoint shape (P : act V -> Prop) {R} (Q : R -> Prop) (p : prog R) : Prop :=
    match p with
    | Ret r => Q r
    | Pan _ => True
    | Act a k => P a /\ forall x, shape P Q (k x)
    | Spin a _ k => P a /\ forall x, shape P Q (k x)
    end.

  Lemma shape_bind P {A B} (Q : A -> Prop) (Q' : B -> Prop) (p : prog A) (f : A -> prog B) :
    shape P Q p -> (forall x, Q x -> shape P Q' (f x)) -> shape P Q' (bind p f).
  Proof.
    intros H Hf. induction p as [r|m|a k IH|a again k IH]; simpl in *; auto; destruct H; auto.
  Qed.
  Lemma shape_bindT P {A B} (Q' : B -> Prop) (p : prog A) (f : A -> prog B) :
    shape P (fun _ => True) p -> (forall x, shape P Q' (f x)) -> shape P Q' (bind p f).
  Proof. intros H Hf. eapply shape_bind; eauto. Qed.
  Lemma shape_weak P {A} (Q Q' : A -> Prop) (p : prog A) :
    (forall x, Q x -> Q' x) -> shape P Q p -> shape P Q' p.
  Proof. intros H. induction p; simpl; auto; intros [H1 H2]; auto. Qed.

  (** [T]: positions the program may lock; [M]: the changes it may make. *)
  Definition act_ok (T : nat -> Prop) (M : act V -> Prop) (a : act V) : Prop :=
    match a with
    | CasSt i _ _ => T i
    | StoreSt _ n => n <> RESERVED
    | AddResv _ _ => False
    | RdEnd i => T i \/ M a
    | InitEnd _ _ | WrEnd _ _ | SwapEnd _ _ => M a
    | _ => True
    end.

  Local Ltac act := first [exact Logic.I|discriminate|assumption|left; assumption].

  Section T.
    Context (T : nat -> Prop) (M : act V -> Prop).
    Notation sh := (shape (act_ok T M) (fun _ => True)).

    Lemma sh_chk {A} m (o : option A) : sh (chk m o).
    Proof. destruct o; exact Logic.I. Qed.
    Lemma sh_chk_in {A} m (o : option A) (Q : A -> Prop) : (forall x, o = Some x -> Q x) -> shape (act_ok T M) Q (chk m o).
    Proof. destruct o; simpl; auto. Qed.

    Lemma sh_spin i s : T i -> sh (spin_handle i s).
    Proof. intros H. repeat split; auto. Qed.
    Lemma sh_try i s : T i -> sh (try_handle i s).
    Proof. intros H. repeat split; auto. Qed.
    Lemma sh_mut i s : T i -> sh (option_mut_handle E i s).
    Proof. intros H. unfold option_mut_handle. destruct (hspin E); [now apply sh_spin|now apply sh_try]. Qed.
    Lemma sh_map {U} i (f : V -> option U) : T i -> sh (option_map i f).
    Proof.
      intros H. unfold option_map. apply shape_bindT; [now apply sh_spin|]. intros [|]; [|exact Logic.I].
      repeat (split; [act|intros ?]). destruct (f x0); exact Logic.I.
    Qed.
    Lemma sh_replace i v : T i -> M (WrEnd i (fun _ => v)) -> sh (option_replace i v).
    Proof.
      intros H HM. unfold option_replace. apply shape_bindT; [now apply sh_spin|]. intros [|]; [|exact Logic.I].
      repeat (split; [act|intros ?]). exact Logic.I.
    Qed.
    Lemma sh_set i v : T i -> M (WrEnd i (fun _ => v)) -> sh (option_set_some i v).
    Proof.
      intros H HM. unfold option_set_some. apply shape_bindT; [now apply sh_spin|]. intros [|]; [|exact Logic.I].
      repeat (split; [act|intros ?]). exact Logic.I.
    Qed.
    Lemma sh_update i f : T i -> M (WrEnd i (fun v => fst (f v))) -> sh (option_update i f).
    Proof.
      intros H HM. unfold option_update. apply shape_bindT; [now apply sh_spin|]. intros [|]; [|exact Logic.I].
      split; [act|]. intros u. split; [act|]. intros old. split; [act|]. intros w.
      destruct (snd (f old)); exact Logic.I.
    Qed.
    Lemma sh_elem_cloned i : T i -> sh (elem_cloned i).
    Proof. intros H. apply shape_bindT; [now apply sh_map|intros; apply sh_chk]. Qed.
    Lemma sh_elem_map {U} i (f : V -> option U) : T i -> sh (elem_map i f).
    Proof. intros H. apply shape_bindT; [now apply sh_map|intros; apply sh_chk]. Qed.
    Lemma sh_elem_replace i v : T i -> M (WrEnd i (fun _ => v)) -> sh (elem_replace i v).
    Proof. intros H HM. apply shape_bindT; [now apply sh_replace|intros; apply sh_chk]. Qed.
    Lemma sh_elem_set i v : T i -> M (WrEnd i (fun _ => v)) -> sh (elem_set i v).
    Proof. intros H HM. apply shape_bindT; [now apply sh_set|]. intros [|]; exact Logic.I. Qed.
    Lemma sh_elem_update i f : T i -> M (WrEnd i (fun v => fst (f v))) -> sh (elem_update i f).
    Proof. intros H HM. apply shape_bindT; [now apply sh_update|]. intros [|]; exact Logic.I. Qed.

    Lemma sh_init i v : M (InitEnd i v) -> sh (initialize_unchecked i v).
    Proof. intros H. repeat (split; [act|intros ?]). exact Logic.I. Qed.
    Lemma sh_is_some i o : sh (is_some_with_order i o).
    Proof. repeat split; discriminate. Qed.
    Lemma sh_doo a : act_ok T M a -> sh (doo a).
    Proof. intros H. repeat split; auto. Qed.
    Lemma sh_core_get i : shape (act_ok T M) (fun o => forall j, o = Some j -> j = i) (core_get i).
    Proof. split; [act|]. intros c. simpl. destruct (i <? c); congruence. Qed.
    Lemma sh_range a b : shape (act_ok T M) (fun l => forall i, In i l -> a <= i < b) (core_iter_over_range (V:=V) a b).
    Proof. split; [act|]. intros x. simpl. intros i Hi. apply in_seq in Hi. lia. Qed.
    Lemma sh_grow n : sh (grow_to n).
    Proof. split; [act|]. intros [|]; simpl; auto. Qed.

    Lemma sh_mapP {A B} (f : A -> prog B) l : (forall x, In x l -> sh (f x)) -> sh (mapP f l).
    Proof.
      induction l as [|x l IH]; intros H; simpl; [exact Logic.I|]. apply shape_bindT; [apply H; simpl; auto|].
      intros y. apply shape_bindT; [apply IH; intros; apply H; simpl; auto|]. intros ys. exact Logic.I.
    Qed.
    Lemma sh_foldP {A B} (f : B -> A -> prog B) l : forall b, (forall b x, In x l -> sh (f b x)) -> sh (foldP f b l).
    Proof.
      induction l as [|x l IH]; intros b H; simpl; [exact Logic.I|]. apply shape_bindT; [apply H; simpl; auto|].
      intros y. apply IH. intros; apply H; simpl; auto.
    Qed.

    Lemma sh_count i k : sh (count_pushed i k).
    Proof.
      revert i. induction k as [|k IH]; intros i; cbn [count_pushed]; [exact Logic.I|].
      apply shape_bindT; [apply sh_is_some|]. intros [|]; [|exact Logic.I].
      apply shape_bindT; [apply IH|]. intros; exact Logic.I.
    Qed.
    Lemma sh_len : sh vec_len.
    Proof.
      repeat (split; [act|intros ?]). simpl.
      change (sh (let until := if x1 <=? x0 then x1 else x0 in
                  bind (count_pushed x (until - x)) (fun n => bind (doo (MaxWrtn (x + n) Release)) (fun _ => Ret (x + n))))).
      cbv zeta. apply shape_bindT; [apply sh_count|]. intros n. repeat split.
    Qed.
    Lemma sh_reserved_len : sh reserved_len.
    Proof. repeat split; discriminate. Qed.

    Lemma sh_slice r : sh (vec_slice E r).
    Proof.
      apply shape_bindT; [apply sh_len|]. intros n. apply shape_bindT; [apply sh_chk|]. intros ab.
      apply shape_bindT; [apply sh_chk|]. intros; exact Logic.I.
    Qed.
    Lemma sh_as_slice : sh (vec_as_slice E).
    Proof. apply shape_bindT; [apply sh_len|]. intros; apply sh_slice. Qed.
    Lemma sh_get i : shape (act_ok T M) (fun o => forall j, o = Some j -> j = i) (vec_get i).
    Proof.
      apply shape_bindT; [apply sh_len|]. intros n. destruct (i <? n); [apply sh_core_get|]. simpl. congruence.
    Qed.
    Lemma sh_getT i : sh (vec_get i).
    Proof. eapply shape_weak; [|apply sh_get]. auto. Qed.
    Lemma sh_iter : sh vec_iter.
    Proof.
      apply shape_bindT; [apply sh_len|]. intros n. eapply shape_weak; [|apply sh_range]. auto.
    Qed.
    Lemma sh_slice_iter x : shape (act_ok T M) (fun l => forall i, In i l -> sl_a x <= i < sl_a x + sl_len x) (slice_iter (V:=V) x).
    Proof. apply sh_range. Qed.
    Lemma sh_slice_slice x r : sh (slice_slice E x r).
    Proof.
      apply shape_bindT; [apply sh_chk|]. intros ab. apply shape_bindT; [apply sh_chk|]. intros; exact Logic.I.
    Qed.

    Lemma sh_fill_with l f : forall k, (forall i, In i l -> T i) ->
      (forall i q v, In i l -> f q = Some v -> M (WrEnd i (fun _ => v))) -> sh (fill_elems_with k l f).
    Proof.
      induction l as [|e l IH]; intros k H HM; cbn [fill_elems_with]; [exact Logic.I|].
      eapply shape_bind; [apply sh_chk_in with (Q := fun v => f k = Some v); auto|]. intros v Hv.
      apply shape_bindT; [apply sh_elem_set; [apply H; simpl; auto|apply (HM e k v); simpl; auto]|]. intros _.
      apply IH; [intros; apply H; simpl; auto|]. intros i q w Hi Hw. apply (HM i q w); simpl; auto.
    Qed.
    Lemma sh_position l v : forall k, (forall i, In i l -> T i) -> sh (position E k l v).
    Proof.
      induction l as [|e l IH]; intros k H; cbn [position]; [exact Logic.I|].
      apply shape_bindT; [apply sh_elem_map, H; simpl; auto|]. intros [|]; [exact Logic.I|].
      apply IH. intros; apply H; simpl; auto.
    Qed.
    Lemma sh_map_elems {U} l : forall f : nat -> V -> option U, (forall i, In i l -> T i) -> sh (map_elems l f).
    Proof.
      induction l as [|e l IH]; intros f H; cbn [map_elems]; [exact Logic.I|].
      apply shape_bindT; [apply sh_elem_map, H; simpl; auto|]. intros b.
      apply shape_bindT; [apply IH; intros; apply H; simpl; auto|]. intros; exact Logic.I.
    Qed.
    Lemma sh_fold_elems {U} l : forall (u : U) f, (forall i, In i l -> T i) -> sh (fold_elems l u f).
    Proof.
      induction l as [|e l IH]; intros u f H; cbn [fold_elems]; [exact Logic.I|].
      apply shape_bindT; [apply sh_elem_map, H; simpl; auto|]. intros b. apply IH. intros; apply H; simpl; auto.
    Qed.
    Lemma sh_filter l : forall f, (forall i, In i l -> T i) -> sh (filter_elems l f).
    Proof.
      induction l as [|e l IH]; intros f H; cbn [filter_elems]; [exact Logic.I|].
      apply shape_bindT; [apply sh_elem_map, H; simpl; auto|]. intros b.
      apply shape_bindT; [apply IH; intros; apply H; simpl; auto|]. intros; exact Logic.I.
    Qed.
    Lemma sh_eq l : forall vs, (forall i, In i l -> T i) -> sh (eq_elems_list E l vs).
    Proof.
      induction l as [|e l IH]; intros [|v vs] H; cbn [eq_elems_list]; try exact Logic.I.
      apply shape_bindT; [apply sh_map, H; simpl; auto|]. intros [[|]|]; try exact Logic.I.
      apply IH. intros; apply H; simpl; auto.
    Qed.
    Lemma sh_fmt l : (forall i, In i l -> T i) -> sh (fmt_elems l).
    Proof.
      intros H. destruct l as [|e l]; cbn [fmt_elems]; [exact Logic.I|].
      apply shape_bindT; [apply sh_elem_map, H; simpl; auto|]. intros x.
      apply shape_bindT; [apply sh_mapP; intros; apply sh_elem_map, H; simpl; auto|]. intros; exact Logic.I.
    Qed.
    Lemma sh_refs l : sh (refs_of l).
    Proof.
      induction l as [|e l IH]; cbn [refs_of]; [exact Logic.I|].
      apply shape_bindT; [apply sh_is_some|]. intros b. apply shape_bindT; [apply IH|]. intros; exact Logic.I.
    Qed.
    Lemma sh_get_ref i : sh (vec_get_ref i).
    Proof.
      apply shape_bindT; [apply sh_reserved_len|]. intros n. destruct (i <? n); [|exact Logic.I].
      apply shape_bindT; [eapply shape_weak; [|apply sh_core_get]; auto|]. intros [e|]; [|exact Logic.I].
      apply shape_bindT; [apply sh_is_some|]. intros; exact Logic.I.
    Qed.
    Lemma sh_get_cloned i : T i -> sh (vec_get_cloned i).
    Proof.
      intros H. apply shape_bindT; [apply sh_reserved_len|]. intros n. destruct (i <? n); [|exact Logic.I].
      eapply shape_bind; [apply sh_core_get|]. intros [e|] He; [|exact Logic.I]. rewrite (He _ eq_refl). now apply sh_map.
    Qed.
    Lemma sh_mut_handle i s : T i -> shape (act_ok T M) (fun o => forall j, o = Some j -> j = i) (vec_mut_handle E i s).
    Proof.
      intros H. apply shape_bindT; [apply sh_len|]. intros n. destruct (i <? n); [|simpl; congruence].
      eapply shape_bind; [apply sh_core_get|]. intros [e|] He; [|simpl; congruence]. rewrite (He _ eq_refl).
      apply shape_bindT; [now apply sh_mut|]. intros [|]; simpl; congruence.
    Qed.
    Lemma sh_swap i j : T i -> T j -> M (SwapEnd i j) -> sh (vec_swap E i j).
    Proof.
      intros Hi Hj HM. eapply shape_bind; [now apply sh_mut_handle|]. intros oi Qi.
      eapply shape_bind; [now apply sh_mut_handle|]. intros oj Qj.
      destruct oi as [x|], oj as [y|]; try rewrite (Qi _ eq_refl); try rewrite (Qj _ eq_refl); repeat (split; [act|intros ?]); exact Logic.I.
    Qed.
    Lemma sh_slice_get x i : sh (slice_get (V:=V) x i).
    Proof. unfold slice_get. destruct (i <? sl_len x); [eapply shape_weak; [|apply sh_core_get]; auto|exact Logic.I]. Qed.

    Lemma sh_write_items n : forall i it, (forall q v, In (Some v) (firstn n it) -> M (InitEnd q v)) -> sh (write_items (V:=V) i n it).
    Proof.
      induction n as [|n IH]; intros i it H; cbn [write_items]; [exact Logic.I|]. destruct it as [|[v|] it]; try exact Logic.I.
      apply shape_bindT; [apply sh_init, H; simpl; auto|]. intros _. apply IH. intros q w Hw. apply H. simpl. auto.
    Qed.
    Lemma sh_single i : sh (single_item_as_ref (V:=V) i).
    Proof.
      split; [act|]. intros m. simpl. destruct (i <? m); [|exact Logic.I]. split; [act|].
      intros c. destruct (write_permit i c); try exact Logic.I. apply sh_grow.
    Qed.
    Lemma sh_buffer b n : sh (n_items_buffer E b n).
    Proof.
      unfold n_items_buffer. destruct (n =? 0); [exact Logic.I|]. apply shape_bindT; [apply sh_chk|]. intros e.
      apply shape_bindT; [apply sh_chk|]. intros l. split; [act|]. intros m. simpl.
      destruct (l <? m); [|exact Logic.I]. split; [act|]. intros c.
      destruct (write_permit_n_items b l c); try exact Logic.I. apply sh_grow.
    Qed.
  End T.

  (** ** Every method *)
  Lemma shape_fmap P {A B} (f : A -> B) (p : prog A) :
    shape P (fun _ => True) p -> shape P (fun _ => True) (fmap f p).
  Proof. intros H. apply shape_bindT; [exact H|]. intros; exact Logic.I. Qed.

  Definition makes (o : op V) (a : act V) : Prop :=
    match a with
    | InitEnd _ v => offers o v
    | WrEnd i f => forall old, replaces o i old (f old)
    | SwapEnd i j => exchanges o i j
    | RdEnd i => o = ODeref i
    | _ => True
    end.
  Definition tail (o : op V) (p : prog (ret V)) : Prop := shape (act_ok (touches o) (makes o)) (fun _ => True) p.

  Lemma slice_shape x o : tail (OSl x o) (sop_prog E x o).
  Proof.
    assert (IT : forall (B : Type) (P : list nat -> prog B),
      (forall l, (forall i, In i l -> sl_a x <= i < sl_a x + sl_len x) ->
                 shape (act_ok (touches (OSl x o)) (makes (OSl x o))) (fun _ => True) (P l)) ->
      shape (act_ok (touches (OSl x o)) (makes (OSl x o))) (fun _ => True) (bind (slice_iter x) P)).
    { intros B P H. eapply shape_bind; [apply sh_slice_iter|]. exact H. }
    unfold tail. destruct o; cbn [sop_prog]; apply shape_fmap.
    - apply sh_slice_get.
    - apply shape_bindT; [apply sh_slice_get|]. intros; apply sh_chk.
    - unfold slice_get_cloned. destruct (Nat.ltb_spec i (sl_len x)) as [Hi|]; [|exact Logic.I].
      eapply shape_bind; [apply sh_core_get|]. intros [e|] He; [|exact Logic.I]. rewrite (He _ eq_refl).
      apply shape_bindT; [apply sh_elem_cloned; split; [exact Hi|reflexivity]|]. intros; exact Logic.I.
    - apply sh_slice_slice.
    - eapply shape_weak; [|apply sh_slice_iter]. auto.
    - apply IT. intros l Hl. apply sh_mapP. intros y Hy. apply sh_elem_cloned. exact (Hl y Hy).
    - unfold slice_swap, slice_idx. destruct (Nat.ltb_spec i (sl_len x)), (Nat.ltb_spec j (sl_len x)); try exact Logic.I.
      apply sh_swap; simpl; auto 6.
    - apply IT. intros l Hl. apply sh_foldP. intros _ y Hy. apply sh_elem_set; [exact (Hl y Hy)|]. intros old. split; [exact (Hl y Hy)|reflexivity].
    - apply IT. intros l Hl. apply sh_fill_with; [exact Hl|]. intros q k v Hq Hf old. split; [exact (Hl q Hq)|eauto].
    - apply IT. intros l Hl. apply sh_position. exact Hl.
    - apply shape_bindT; [|intros; exact Logic.I]. apply IT. intros l Hl. apply sh_position. exact Hl.
    - apply IT. intros l Hl. apply sh_mapP. intros y Hy. apply sh_elem_cloned. exact (Hl y Hy).
    - apply IT. intros l Hl. apply sh_map_elems. exact Hl.
    - apply IT. intros l Hl. apply sh_filter. exact Hl.
    - apply IT. intros l Hl. apply sh_fold_elems. exact Hl.
    - apply IT. intros [|y l] Hl; [exact Logic.I|]. apply shape_bindT; [apply sh_elem_cloned; apply (Hl y); simpl; auto|].
      intros v. apply shape_bindT; [|intros; exact Logic.I]. apply sh_fold_elems. intros z Hz. apply (Hl z); simpl; auto.
    - unfold slice_split_at. destruct (m <=? sl_len x); [|exact Logic.I].
      apply shape_bindT; [apply sh_slice_slice|]. intros. apply shape_bindT; [apply sh_slice_slice|]. intros; exact Logic.I.
    - apply shape_bindT; [apply sh_slice_get|]. intros [y|]; [|exact Logic.I].
      apply shape_bindT; [apply sh_slice_slice|]. intros; exact Logic.I.
    - unfold slice_split_last. destruct (sl_len x); [exact Logic.I|].
      apply shape_bindT; [apply sh_slice_slice|]. intros. apply shape_bindT; [|intros; exact Logic.I].
      apply shape_bindT; [apply sh_slice_get|]. intros; apply sh_chk.
    - unfold slice_chunks. destruct (0 <? k); [|exact Logic.I]. apply sh_mapP. intros ab _. apply sh_slice_slice.
    - apply IT. intros q Hl. apply sh_eq. exact Hl.
    - apply IT. intros l Hl. apply sh_fmt. exact Hl.
    - unfold slice_get_ref. destruct (slice_idx x i); [apply sh_get_ref|exact Logic.I].
    - apply IT. intros l Hl. apply sh_refs.
  Qed.

  Lemma op_shape o : grows o = false -> tail o (op_prog E o).
  Proof.
    intros G. unfold tail. destruct o; try discriminate; cbn [op_prog]; try apply shape_fmap.
    - apply sh_len.
    - apply shape_bindT; [apply sh_len|]. intros; exact Logic.I.
    - repeat split.
    - repeat split.
    - apply sh_getT.
    - apply shape_bindT; [apply sh_getT|]. intros; apply sh_chk.
    - apply sh_get_cloned. reflexivity.
    - apply sh_get_cloned. reflexivity.
    - apply sh_slice.
    - apply sh_as_slice.
    - apply sh_iter.
    - apply shape_bindT; [apply sh_len|]. intros n. apply shape_bindT; [eapply shape_weak; [|apply sh_range]; auto|].
      intros l. apply sh_mapP. intros. apply sh_elem_cloned. exact Logic.I.
    - apply sh_swap; simpl; auto.
    - apply shape_bindT; [apply sh_iter|]. intros l. apply sh_foldP. intros. apply sh_elem_set; [exact Logic.I|intros old; reflexivity].
    - apply shape_bindT; [apply sh_iter|]. intros l. apply sh_fill_with; [intros; exact Logic.I|]. intros i k v _ Hf old. exists k. exact Hf.
    - apply shape_bindT; [apply sh_iter|]. intros l. apply sh_position. intros; exact Logic.I.
    - apply shape_bindT; [|intros; exact Logic.I]. apply shape_bindT; [apply sh_iter|]. intros l. apply sh_position. intros; exact Logic.I.
    - apply shape_bindT; [apply sh_as_slice|]. intros x. apply shape_bindT; [eapply shape_weak; [|apply sh_slice_iter]; auto|].
      intros l. apply sh_mapP. intros. apply sh_elem_cloned. exact Logic.I.
    - apply shape_bindT; [apply sh_iter|]. intros l. apply sh_map_elems. intros. exact Logic.I.
    - apply shape_bindT; [apply sh_iter|]. intros l. apply sh_filter. intros; exact Logic.I.
    - apply shape_bindT; [apply sh_iter|]. intros l. apply sh_fold_elems. intros. exact Logic.I.
    - apply shape_bindT; [apply sh_as_slice|]. intros x. apply shape_bindT; [eapply shape_weak; [|apply sh_slice_iter]; auto|].
      intros [|y l]; [exact Logic.I|]. apply shape_bindT; [apply sh_elem_cloned; exact Logic.I|].
      intros v. apply shape_bindT; [|intros; exact Logic.I]. apply sh_fold_elems. intros. exact Logic.I.
    - apply shape_bindT; [apply sh_len|]. intros n. destruct (m <=? n); [|exact Logic.I].
      apply shape_bindT; [apply sh_slice|]. intros. apply shape_bindT; [apply sh_slice|]. intros; exact Logic.I.
    - apply shape_bindT; [apply sh_getT|]. intros [a|]; [|exact Logic.I]. apply shape_bindT; [apply sh_len|]. intros n.
      apply shape_bindT; [apply sh_slice|]. intros; exact Logic.I.
    - apply shape_bindT; [apply sh_len|]. intros [|n]; [exact Logic.I|]. apply shape_bindT; [apply sh_slice|]. intros a.
      apply shape_bindT; [|intros; exact Logic.I]. apply shape_bindT; [apply sh_getT|]. intros; apply sh_chk.
    - unfold vec_chunks. destruct (0 <? k); [|exact Logic.I]. apply shape_bindT; [apply sh_len|]. intros n.
      apply sh_mapP. intros. apply sh_slice.
    - apply shape_bindT; [apply sh_iter|]. intros q. apply sh_eq. intros; exact Logic.I.
    - apply shape_bindT; [apply sh_iter|]. intros l. apply sh_fmt. intros; exact Logic.I.
    - destruct o; cbn [eop_prog]; apply shape_fmap.
      + apply sh_elem_cloned. reflexivity.
      + apply sh_elem_cloned. reflexivity.
      + apply sh_elem_map. reflexivity.
      + apply sh_elem_replace; [|intros old; split]; reflexivity.
      + apply sh_elem_set; [|intros old; split]; reflexivity.
      + apply sh_elem_update; [|intros old; split]; reflexivity.
      + apply sh_elem_map. reflexivity.
    - apply slice_shape.
    - apply sh_get_ref.
    - apply shape_bindT; [apply sh_reserved_len|]. intros n. apply shape_bindT; [eapply shape_weak; [|apply sh_range]; auto|].
      intros l. apply sh_refs.
    - repeat split. right. reflexivity.
    - repeat split.
  Qed.

  (** A growth call reserves its positions with its first access, and locks nothing. *)
  Lemma grow_shape o : grows o = true ->
    exists k, op_prog E o = Act (AddResv (request o) Relaxed) k /\ forall x, tail o (k x).
  Proof.
    intros G. unfold tail.
    destruct o; try discriminate; cbn [op_prog request];
      unfold push_for_idx, push, extend, extend_n_items, extend_for_idx;
      match goal with |- exists k, fmap RNat (bind (doo _) ?f) = _ /\ _ => exists (fun b => fmap RNat (f b)) end;
      (split; [reflexivity|]); intros b; apply shape_fmap.
    - apply shape_bindT; [apply sh_single|]. intros _. apply shape_bindT; [apply sh_init; reflexivity|]. intros _. exact Logic.I.
    - eapply shape_bind; [apply sh_chk_in with (Q := fun v => f b = Some v); auto|]. intros v Hv.
      apply shape_bindT; [apply sh_single|]. intros _. apply shape_bindT; [apply sh_init; exists b; exact Hv|]. intros _. exact Logic.I.
    - apply shape_bindT; [apply sh_buffer|]. intros _.
      apply shape_bindT; [apply sh_write_items; auto|]. intros _. exact Logic.I.
    - apply shape_bindT; [apply sh_buffer|]. intros _.
      eapply shape_bind; [apply sh_chk_in with (Q := fun x => f b = Some x); auto|]. intros [m it] Hf. simpl.
      destruct (Nat.eqb_spec m n) as [->|]; [|exact Logic.I].
      apply shape_bindT; [apply sh_write_items; intros q v Hv; exists b, it; auto|]. intros _. exact Logic.I.
    - apply shape_bindT; [apply sh_buffer|]. intros _.
      apply shape_bindT; [apply sh_write_items; auto|]. intros _. exact Logic.I.
  Qed.
End Shape.
