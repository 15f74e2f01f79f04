(** * Which elements a call holds while it runs.

    A call other than [swap] holds at most one element, and makes no other access to an element
    state while it does; [swap] holds at most two, and does not look at the state of the first while
    it locks the second, unless they are the same. *)

From Coq Require Import List Arith Bool Lia.
From Verif.Model Require Import Prog Mem Deps State Elem Vec Excl Machine.
From Verif Require Import Client Spec.
From Verif.Logic Require Import Inv WP Post Specs Ops Sound Shape Clients Hist.
Import ListNotations.
Local Arguments Nat.leb : simpl never.
Local Arguments Nat.ltb : simpl never.
Local Arguments Nat.eqb : simpl never.
Local Arguments Nat.add : simpl never.
Local Arguments Nat.sub : simpl never.
Local Arguments Nat.max : simpl never.

Section Calm.
  Context {V : Type} (E : env V).
  Notation prog := (prog V).

  (** [H]: the elements the call holds; [w]: a length it has seen. *)
  Definition held (H : list nat) (a : act V) : res a -> list nat :=
    match a return res a -> list nat with
    | CasSt i _ _ => fun r => if fst r then i :: H else H
    | StoreSt i _ => fun _ => remove1 i H
    | _ => fun _ => H
    end.
  Definition known (w : nat) (a : act V) : res a -> nat :=
    match a return res a -> nat with
    | LoadWrtn _ => fun x => x
    | MaxWrtn n _ => fun _ => Nat.max w n
    | _ => fun _ => w
    end.
  Definition fits (w : nat) (a : act V) : res a -> Prop :=
    match a return res a -> Prop with
    | LoadWrtn _ => fun x => w <= x
    | _ => fun _ => True
    end.

  Section Flags.
  (** [self]: the call may try to lock an element it holds; [multi]: it may wait for an element
      while it holds another. *)
  Context (self multi : bool).

  Definition free (H : list nat) (a : act V) : Prop :=
    match a with
    | LoadSt i _ => ~ In i H
    | CasSt i _ _ => self = true \/ ~ In i H
    | _ => True
    end.

  Fixpoint calm {R} (Q : R -> list nat -> nat -> Prop) (H : list nat) (w : nat) (p : prog R) : Prop :=
    match p with
    | Ret r => Q r H w
    | Pan _ => H = []
    | Act a k => free H a /\ forall x, fits w a x -> calm Q (held H a x) (known w a x) (k x)
    | Spin a _ k => (multi = true \/ H = []) /\ free H a /\ forall x, fits w a x -> calm Q (held H a x) (known w a x) (k x)
    end.

  Lemma calm_bind {A B} (Q : A -> list nat -> nat -> Prop) (Q' : B -> list nat -> nat -> Prop) (p : prog A) (f : A -> prog B) :
    forall H w, calm Q H w p -> (forall x H w, Q x H w -> calm Q' H w (f x)) -> calm Q' H w (bind p f).
  Proof.
    induction p as [r|m|a k IH|a ag k IH]; intros H w C F; simpl in *; auto.
    - destruct C as [C1 C2]. split; [assumption|]. intros x Hx. apply IH; auto.
    - destruct C as (C0 & C1 & C2). split; [assumption|]. split; [assumption|]. intros x Hx. apply IH; auto.
  Qed.

  (** A program that holds nothing at its start and nothing at its end. *)
  Definition rel {R} (p : prog R) : Prop := forall w, calm (fun _ H _ => H = []) [] w p.

  Lemma rel_bind {A B} (p : prog A) (f : A -> prog B) : rel p -> (forall x, rel (f x)) -> rel (bind p f).
  Proof. intros H F w. eapply calm_bind; [apply H|]. intros x H' w' ->. apply F. Qed.
  Lemma rel_fmap {A B} (f : A -> B) (p : prog A) : rel p -> rel (fmap f p).
  Proof. intros H. apply rel_bind; [exact H|]. intros x w. reflexivity. Qed.
  Lemma rel_ret {A} (x : A) : rel (Ret x).
  Proof. intros w. reflexivity. Qed.
  Lemma rel_pan {A} m : rel (R := A) (Pan m).
  Proof. intros w. reflexivity. Qed.
  Lemma rel_chk {A} m (o : option A) : rel (chk m o).
  Proof. destruct o; intros w; reflexivity. Qed.

  Local Ltac go := repeat first
    [ progress intros
    | match goal with |- _ /\ _ => split end
    | exact Logic.I | reflexivity | right; tauto | tauto
    | progress simpl ].

  Lemma rel_spin_then {B} i s (f : bool -> prog B) :
    (forall w, calm (fun _ H _ => H = []) [i] w (f true)) -> rel (f false) -> rel (bind (spin_handle i s) f).
  Proof.
    intros Ht Hf w. split; [auto|]. split; [right; intros []|]. intros [[|] x] _; simpl; [apply Ht|apply Hf].
  Qed.
  Lemma rm1 i : remove1 i [i] = [].
  Proof. simpl. now rewrite Nat.eqb_refl. Qed.

  Lemma rel_map {U} i (f : V -> option U) : rel (option_map i f).
  Proof.
    apply rel_spin_then; [|apply rel_ret]. intros w. simpl. go. rewrite Nat.eqb_refl. destruct (f x0); reflexivity.
  Qed.
  Lemma rel_replace i v : rel (option_replace i v).
  Proof. apply rel_spin_then; [|apply rel_ret]. intros w. simpl. go. now rewrite Nat.eqb_refl. Qed.
  Lemma rel_set i v : rel (option_set_some i v).
  Proof. apply rel_spin_then; [|apply rel_ret]. intros w. simpl. go. now rewrite Nat.eqb_refl. Qed.
  Lemma rel_update i f : rel (option_update i f).
  Proof.
    apply rel_spin_then; [|apply rel_ret]. intros w. simpl. go. rewrite Nat.eqb_refl. destruct (snd (f x0)); reflexivity.
  Qed.
  Lemma rel_elem_cloned i : rel (elem_cloned i).
  Proof. apply rel_bind; [apply rel_map|intros; apply rel_chk]. Qed.
  Lemma rel_elem_map {U} i (f : V -> option U) : rel (elem_map i f).
  Proof. apply rel_bind; [apply rel_map|intros; apply rel_chk]. Qed.
  Lemma rel_elem_replace i v : rel (elem_replace i v).
  Proof. apply rel_bind; [apply rel_replace|intros; apply rel_chk]. Qed.
  Lemma rel_elem_set i v : rel (elem_set i v).
  Proof. apply rel_bind; [apply rel_set|]. intros [|]; [apply rel_ret|apply rel_pan]. Qed.
  Lemma rel_elem_update i f : rel (elem_update i f).
  Proof. apply rel_bind; [apply rel_update|]. intros [|]; [apply rel_ret|apply rel_pan]. Qed.

  Lemma rel_init i v : rel (initialize_unchecked i v).
  Proof. intros w. simpl. go. Qed.
  Lemma rel_is_some i o : rel (is_some_with_order i o).
  Proof. intros w. simpl. go. Qed.
  Lemma rel_core_get i : rel (core_get i).
  Proof. intros w. simpl. go. Qed.
  Lemma rel_range a b : rel (core_iter_over_range a b).
  Proof. intros w. simpl. go. Qed.
  Lemma rel_grow n : rel (grow_to n).
  Proof. intros w. split; [exact Logic.I|]. intros [|] _; simpl; go. Qed.

  Lemma rel_mapP {A B} (f : A -> prog B) l : (forall x, rel (f x)) -> rel (mapP f l).
  Proof.
    intros H. induction l as [|x l IH]; simpl; [apply rel_ret|]. apply rel_bind; [apply H|].
    intros y. apply rel_bind; [apply IH|]. intros; apply rel_ret.
  Qed.
  Lemma rel_foldP {A B} (f : B -> A -> prog B) l : forall b, (forall b x, rel (f b x)) -> rel (foldP f b l).
  Proof.
    induction l as [|x l IH]; intros b H; simpl; [apply rel_ret|]. apply rel_bind; [apply H|]. intros y. now apply IH.
  Qed.

  (** Counting from [len] on does not look at elements below [len]. *)
  Lemma calm_count (Q : nat -> list nat -> nat -> Prop) H w k : forall i, (forall j, In j H -> j < i) ->
    (forall n, n <= k -> Q n H w) -> calm Q H w (count_pushed i k).
  Proof.
    revert Q. induction k as [|k IH]; intros Q i Hi HQ; cbn [count_pushed]; [apply HQ; lia|].
    split; [intros X; apply Hi in X; lia|]. intros x _. simpl. destruct (st_eqb x SOME); [|apply HQ; lia].
    eapply calm_bind with (Q := fun n H' w' => n <= k /\ H' = H /\ w' = w).
    - apply IH; [intros j X; apply Hi in X; lia|auto].
    - intros n H' w' (Hn & -> & ->). apply HQ. lia.
  Qed.
  Lemma calm_len (Q : nat -> list nat -> nat -> Prop) H w : (forall j, In j H -> j < w) ->
    (forall n w', w <= w' -> n <= w' -> Q n H w') -> calm Q H w vec_len.
  Proof.
    intros Hw HQ. split; [exact Logic.I|]. intros x Hx. simpl in Hx. cbn [held known].
    split; [exact Logic.I|]. intros c _. split; [exact Logic.I|]. intros r _.
    split; [exact Logic.I|]. intros u _. cbn [held known].
    match goal with |- calm _ _ _ ?p =>
      change p with (bind (V:=V) (count_pushed x ((if r <=? c then r else c) - x)) (fun n => bind (doo (MaxWrtn (x + n) Release)) (fun _ => Ret (x + n)))) end.
    eapply calm_bind with (Q := fun n H' w' => H' = H /\ w' = x).
    - apply calm_count; [intros j X; apply Hw in X; lia|auto].
    - intros n H' w' (-> & ->). split; [exact Logic.I|]. intros z _. simpl. apply HQ; lia.
  Qed.
  Lemma rel_len : rel vec_len.
  Proof. intros w. apply calm_len; [intros j []|auto]. Qed.
  Lemma rel_reserved_len : rel reserved_len.
  Proof. intros w. simpl. go. Qed.

  Lemma rel_slice r : rel (vec_slice E r).
  Proof.
    apply rel_bind; [apply rel_len|]. intros n. apply rel_bind; [apply rel_chk|]. intros ab.
    apply rel_bind; [apply rel_chk|]. intros; apply rel_ret.
  Qed.
  Lemma rel_as_slice : rel (vec_as_slice E).
  Proof. apply rel_bind; [apply rel_len|]. intros; apply rel_slice. Qed.
  Lemma rel_get i : rel (vec_get i).
  Proof. apply rel_bind; [apply rel_len|]. intros n. destruct (i <? n); [apply rel_core_get|apply rel_ret]. Qed.
  Lemma rel_iter : rel vec_iter.
  Proof. apply rel_bind; [apply rel_len|]. intros n. apply rel_range. Qed.
  Lemma rel_slice_iter x : rel (slice_iter (V:=V) x).
  Proof. apply rel_range. Qed.
  Lemma rel_slice_slice x r : rel (slice_slice E x r).
  Proof. apply rel_bind; [apply rel_chk|]. intros ab. apply rel_bind; [apply rel_chk|]. intros; apply rel_ret. Qed.
  Lemma rel_slice_get x i : rel (slice_get (V:=V) x i).
  Proof. unfold slice_get. destruct (i <? sl_len x); [apply rel_core_get|apply rel_ret]. Qed.
  Lemma rel_fill_with l f : forall k, rel (fill_elems_with k l f).
  Proof.
    induction l as [|e l IH]; intros k; cbn [fill_elems_with]; [apply rel_ret|].
    apply rel_bind; [apply rel_chk|]. intros v. apply rel_bind; [apply rel_elem_set|]. intros _. apply IH.
  Qed.
  Lemma rel_position l v : forall k, rel (position E k l v).
  Proof.
    induction l as [|e l IH]; intros k; cbn [position]; [apply rel_ret|].
    apply rel_bind; [apply rel_elem_map|]. intros [|]; [apply rel_ret|apply IH].
  Qed.
  Lemma rel_map_elems {U} l : forall f : nat -> V -> option U, rel (map_elems l f).
  Proof.
    induction l as [|e l IH]; intros f; cbn [map_elems]; [apply rel_ret|].
    apply rel_bind; [apply rel_elem_map|]. intros b. apply rel_bind; [apply IH|]. intros; apply rel_ret.
  Qed.
  Lemma rel_fold_elems {U} l : forall (u : U) f, rel (fold_elems l u f).
  Proof.
    induction l as [|e l IH]; intros u f; cbn [fold_elems]; [apply rel_ret|].
    apply rel_bind; [apply rel_elem_map|]. intros b. apply IH.
  Qed.
  Lemma rel_filter l : forall f, rel (filter_elems l f).
  Proof.
    induction l as [|e l IH]; intros f; cbn [filter_elems]; [apply rel_ret|].
    apply rel_bind; [apply rel_elem_map|]. intros b. apply rel_bind; [apply IH|]. intros; apply rel_ret.
  Qed.
  Lemma rel_eq l : forall vs, rel (eq_elems_list E l vs).
  Proof.
    induction l as [|e l IH]; intros [|v vs]; cbn [eq_elems_list]; try apply rel_ret.
    apply rel_bind; [apply rel_map|]. intros [[|]|]; try apply rel_ret. apply IH.
  Qed.
  Lemma rel_fmt l : rel (fmt_elems l).
  Proof.
    destruct l as [|e l]; cbn [fmt_elems]; [apply rel_ret|].
    apply rel_bind; [apply rel_elem_map|]. intros x.
    apply rel_bind; [apply rel_mapP; intros; apply rel_elem_map|]. intros; apply rel_ret.
  Qed.
  Lemma rel_refs l : rel (refs_of l).
  Proof.
    induction l as [|e l IH]; cbn [refs_of]; [apply rel_ret|].
    apply rel_bind; [apply rel_is_some|]. intros b. apply rel_bind; [apply IH|]. intros; apply rel_ret.
  Qed.
  Lemma rel_get_ref i : rel (vec_get_ref i).
  Proof.
    apply rel_bind; [apply rel_reserved_len|]. intros n. destruct (i <? n); [|apply rel_ret].
    apply rel_bind; [apply rel_core_get|]. intros [e|]; [|apply rel_ret].
    apply rel_bind; [apply rel_is_some|]. intros; apply rel_ret.
  Qed.
  Lemma rel_get_cloned i : rel (vec_get_cloned i).
  Proof.
    apply rel_bind; [apply rel_reserved_len|]. intros n. destruct (i <? n); [|apply rel_ret].
    apply rel_bind; [apply rel_core_get|]. intros [e|]; [apply rel_map|apply rel_ret].
  Qed.
  Lemma rel_write_items n : forall i it, rel (write_items (V:=V) i n it).
  Proof.
    induction n as [|n IH]; intros i it; cbn [write_items]; [apply rel_ret|].
    destruct it as [|[v|] it]; try apply rel_pan. apply rel_bind; [apply rel_init|]. intros _. apply IH.
  Qed.
  Lemma rel_single i : rel (single_item_as_ref (V:=V) i).
  Proof.
    intros w. split; [exact Logic.I|]. intros m _. simpl. destruct (i <? m); [|reflexivity].
    split; [auto|]. split; [exact Logic.I|]. intros c _. simpl. destruct (write_permit i c); try reflexivity. apply rel_grow.
  Qed.
  Lemma rel_buffer b n : rel (n_items_buffer E b n).
  Proof.
    unfold n_items_buffer. destruct (n =? 0); [apply rel_ret|]. apply rel_bind; [apply rel_chk|]. intros e.
    apply rel_bind; [apply rel_chk|]. intros l w. split; [exact Logic.I|]. intros m _. simpl.
    destruct (l <? m); [|reflexivity]. split; [auto|]. split; [exact Logic.I|]. intros c _. simpl.
    destruct (write_permit_n_items b l c); try reflexivity. apply rel_grow.
  Qed.

  (** ** [swap] *)
  Definition got i (H0 : list nat) (w0 : nat) (o : option nat) (H : list nat) (w : nat) : Prop :=
    w0 <= w /\ ((o = None /\ H = H0) \/ (o = Some i /\ H = i :: H0 /\ i < w)).
  Lemma calm_mut_handle i H w : (forall j, In j H -> j < w) -> (multi = true \/ hspin E = false \/ H = []) ->
    (self = true \/ ~ In i H) -> calm (got i H w) H w (vec_mut_handle E i SOME).
  Proof.
    intros Hw Hm Hs. unfold vec_mut_handle.
    eapply calm_bind with (Q := fun n H' w' => H' = H /\ w <= w' /\ n <= w').
    { apply calm_len; auto. }
    intros n H' w' (-> & L1 & L2). destruct (Nat.ltb_spec i n) as [Hi|]; [|split; [assumption|auto]].
    split; [exact Logic.I|]. intros c _. cbn [held known].
    match goal with |- calm _ _ _ ?p => change p with
      (bind (V:=V) (Ret (if i <? c then Some i else None))
         (fun o => match o with
           | Some e => bind (option_mut_handle E e SOME) (fun h : bool => Ret (if h then Some e else None))
           | None => Ret None end)) end.
    destruct (i <? c); [|split; [assumption|auto]]. simpl. unfold option_mut_handle. destruct (hspin E) eqn:Hsp; simpl.
    - split; [intuition congruence|]. split; [assumption|]. intros [[|] x] _; simpl; (split; [assumption|]); [right|left]; auto.
      split; [reflexivity|]. split; [reflexivity|lia].
    - split; [assumption|]. intros [[|] x] _; simpl; (split; [assumption|]); [right|left]; auto.
      split; [reflexivity|]. split; [reflexivity|lia].
  Qed.
  Lemma rel_swap i j : multi = true \/ hspin E = false -> self = true \/ i <> j -> rel (vec_swap E i j).
  Proof.
    intros Hm Hs w. unfold vec_swap. eapply calm_bind.
    { apply calm_mut_handle; [intros ? []|auto|auto]. }
    intros oi H w1 [L1 D]. eapply calm_bind with (Q := got j H w1).
    { apply calm_mut_handle.
      - intros q Hq. destruct D as [[_ ->]|(_ & -> & Hi)]; [destruct Hq|]. destruct Hq as [<-|[]]. exact Hi.
      - tauto.
      - destruct Hs as [Hs|Hs]; [auto|]. destruct D as [[_ ->]|(_ & -> & Hi)]; [auto|]. right. intros [X|[]]. congruence. }
    intros oj H2 w2 [L2 D2].
    destruct D as [[-> ->]|(-> & -> & Hi)], D2 as [[-> ->]|(-> & -> & Hj)]; simpl.
    - reflexivity.
    - split; [exact Logic.I|]. intros x _. now rewrite Nat.eqb_refl.
    - split; [exact Logic.I|]. intros x _. now rewrite Nat.eqb_refl.
    - repeat (split; [exact Logic.I|]; intros ? _; simpl). rewrite Nat.eqb_refl. simpl. now rewrite Nat.eqb_refl.
  Qed.
  End Flags.

  (** ** Every method *)
  Definition waits_holding (o : op V) : bool := swaps o && hspin E.
  Definition quietly (o : op V) {R} (p : prog R) : Prop := rel (self_swap o) (waits_holding o) p.

  Local Ltac gr :=
    unfold push_for_idx, push, extend, extend_n_items, extend_for_idx;
    apply rel_bind; [intros w; split; [exact Logic.I|]; intros; reflexivity|]; intros b.
  Lemma op_quiet o : mut_refs o = false -> quietly o (op_prog E o).
  Proof.
    intros NM. unfold quietly. destruct o; try discriminate; cbn [op_prog]; try apply rel_fmap.
    - gr. apply rel_bind; [apply rel_single|]. intros _. apply rel_bind; [apply rel_init|]. intros _. apply rel_ret.
    - gr. apply rel_bind; [apply rel_chk|]. intros v. apply rel_bind; [apply rel_single|]. intros _.
      apply rel_bind; [apply rel_init|]. intros _. apply rel_ret.
    - gr. apply rel_bind; [apply rel_buffer|]. intros _. apply rel_bind; [apply rel_write_items|]. intros _. apply rel_ret.
    - gr. apply rel_bind; [apply rel_buffer|]. intros _. apply rel_bind; [apply rel_chk|]. intros it.
      destruct (fst it =? n); [|apply rel_pan]. apply rel_bind; [apply rel_write_items|]. intros _. apply rel_ret.
    - gr. apply rel_bind; [apply rel_buffer|]. intros _. apply rel_bind; [apply rel_write_items|]. intros _. apply rel_ret.
    - apply rel_len.
    - apply rel_bind; [apply rel_len|]. intros; apply rel_ret.
    - intros w. split; [exact Logic.I|]. intros; reflexivity.
    - intros w. split; [exact Logic.I|]. intros; reflexivity.
    - apply rel_get.
    - apply rel_bind; [apply rel_get|]. intros; apply rel_chk.
    - apply rel_get_cloned.
    - apply rel_get_cloned.
    - apply rel_slice.
    - apply rel_as_slice.
    - apply rel_iter.
    - apply rel_bind; [apply rel_len|]. intros n. apply rel_bind; [apply rel_range|]. intros l. apply rel_mapP. intros; apply rel_elem_cloned.
    - apply rel_swap.
      + unfold waits_holding. simpl. destruct (hspin E); auto.
      + simpl. destruct (Nat.eqb_spec i j); auto.
    - apply rel_bind; [apply rel_iter|]. intros l. apply rel_foldP. intros; apply rel_elem_set.
    - apply rel_bind; [apply rel_iter|]. intros l. apply rel_fill_with.
    - apply rel_bind; [apply rel_iter|]. intros l. apply rel_position.
    - apply rel_bind; [|intros; apply rel_ret]. apply rel_bind; [apply rel_iter|]. intros l. apply rel_position.
    - apply rel_bind; [apply rel_as_slice|]. intros x. apply rel_bind; [apply rel_slice_iter|]. intros l. apply rel_mapP. intros; apply rel_elem_cloned.
    - apply rel_bind; [apply rel_iter|]. intros l. apply rel_map_elems.
    - apply rel_bind; [apply rel_iter|]. intros l. apply rel_filter.
    - apply rel_bind; [apply rel_iter|]. intros l. apply rel_fold_elems.
    - apply rel_bind; [apply rel_as_slice|]. intros x. apply rel_bind; [apply rel_slice_iter|].
      intros [|y l]; [apply rel_ret|]. apply rel_bind; [apply rel_elem_cloned|].
      intros v. apply rel_bind; [|intros; apply rel_ret]. apply rel_fold_elems.
    - apply rel_bind; [apply rel_len|]. intros n. destruct (m <=? n); [|apply rel_pan].
      apply rel_bind; [apply rel_slice|]. intros. apply rel_bind; [apply rel_slice|]. intros; apply rel_ret.
    - apply rel_bind; [apply rel_get|]. intros [a|]; [|apply rel_ret]. apply rel_bind; [apply rel_len|]. intros n.
      apply rel_bind; [apply rel_slice|]. intros; apply rel_ret.
    - apply rel_bind; [apply rel_len|]. intros [|n]; [apply rel_ret|]. apply rel_bind; [apply rel_slice|]. intros a.
      apply rel_bind; [|intros; apply rel_ret]. apply rel_bind; [apply rel_get|]. intros; apply rel_chk.
    - unfold vec_chunks. destruct (0 <? k); [|apply rel_pan]. apply rel_bind; [apply rel_len|]. intros n.
      apply rel_mapP. intros. apply rel_slice.
    - apply rel_bind; [apply rel_iter|]. intros q. apply rel_eq.
    - apply rel_bind; [apply rel_iter|]. intros l. apply rel_fmt.
    - destruct o; cbn [eop_prog]; apply rel_fmap; try apply rel_elem_cloned; try apply rel_elem_map.
      + apply rel_elem_replace.
      + apply rel_elem_set.
      + apply rel_elem_update.
    - destruct o; cbn [sop_prog]; apply rel_fmap.
      + apply rel_slice_get.
      + apply rel_bind; [apply rel_slice_get|]. intros; apply rel_chk.
      + unfold slice_get_cloned. destruct (i <? sl_len x); [|apply rel_ret].
        apply rel_bind; [apply rel_core_get|]. intros [e|]; [|apply rel_ret].
        apply rel_bind; [apply rel_elem_cloned|]. intros; apply rel_ret.
      + apply rel_slice_slice.
      + apply rel_slice_iter.
      + apply rel_bind; [apply rel_slice_iter|]. intros l. apply rel_mapP. intros; apply rel_elem_cloned.
      + unfold slice_swap, slice_idx. destruct (i <? sl_len x), (j <? sl_len x); try apply rel_ret.
        apply rel_swap.
        * unfold waits_holding. simpl. destruct (hspin E); auto.
        * simpl. destruct (Nat.eqb_spec i j); [auto|]. right. lia.
      + apply rel_bind; [apply rel_slice_iter|]. intros l. apply rel_foldP. intros; apply rel_elem_set.
      + apply rel_bind; [apply rel_slice_iter|]. intros l. apply rel_fill_with.
      + apply rel_bind; [apply rel_slice_iter|]. intros l. apply rel_position.
      + apply rel_bind; [|intros; apply rel_ret]. apply rel_bind; [apply rel_slice_iter|]. intros l. apply rel_position.
      + apply rel_bind; [apply rel_slice_iter|]. intros l. apply rel_mapP. intros; apply rel_elem_cloned.
      + apply rel_bind; [apply rel_slice_iter|]. intros l. apply rel_map_elems.
      + apply rel_bind; [apply rel_slice_iter|]. intros l. apply rel_filter.
      + apply rel_bind; [apply rel_slice_iter|]. intros l. apply rel_fold_elems.
      + apply rel_bind; [apply rel_slice_iter|].
        intros [|y l]; [apply rel_ret|]. apply rel_bind; [apply rel_elem_cloned|].
        intros v. apply rel_bind; [|intros; apply rel_ret]. apply rel_fold_elems.
      + unfold slice_split_at. destruct (m <=? sl_len x); [|apply rel_pan].
        apply rel_bind; [apply rel_slice_slice|]. intros. apply rel_bind; [apply rel_slice_slice|]. intros; apply rel_ret.
      + apply rel_bind; [apply rel_slice_get|]. intros [y|]; [|apply rel_ret].
        apply rel_bind; [apply rel_slice_slice|]. intros; apply rel_ret.
      + unfold slice_split_last. destruct (sl_len x); [apply rel_ret|].
        apply rel_bind; [apply rel_slice_slice|]. intros. apply rel_bind; [|intros; apply rel_ret].
        apply rel_bind; [apply rel_slice_get|]. intros; apply rel_chk.
      + unfold slice_chunks. destruct (0 <? k); [|apply rel_pan]. apply rel_mapP. intros ab. apply rel_slice_slice.
      + apply rel_bind; [apply rel_slice_iter|]. intros q. apply rel_eq.
      + apply rel_bind; [apply rel_slice_iter|]. intros l. apply rel_fmt.
      + unfold slice_get_ref. destruct (slice_idx x i); [apply rel_get_ref|apply rel_ret].
      + apply rel_bind; [apply rel_slice_iter|]. intros l. apply rel_refs.
    - apply rel_get_ref.
    - apply rel_bind; [apply rel_reserved_len|]. intros n. apply rel_bind; [apply rel_range|].
      intros l. apply rel_refs.
    - intros w. simpl. tauto.
  Qed.
End Calm.

Section Exec.
  Context {V : Type} (E : env V) (ro nl : bool) (l0 : list V) (c0 m0 : nat).
  Implicit Types (c : cfg V) (s : shared V) (f : nat -> list nat * nat).

  Notation calm_call x H w := (calm (self_swap (c_op x)) (waits_holding E (c_op x)) (fun (_ : ret V) H' (_ : nat) => H' = []) H w (c_prog x)).

  (** [f t]: what thread [t] holds, and a length it has seen. *)
  Record holds c f : Prop := Holds {
    k_calm : forall t x, lookup t (run c) = Some x -> calm_call x (fst (f t)) (snd (f t));
    k_touch : forall t x i, lookup t (run c) = Some x -> In i (fst (f t)) -> touches (c_op x) i;
    k_len : forall t x, lookup t (run c) = Some x -> snd (f t) <= wrtn (sh c);
    k_lock : forall i, i < cap (sh c) -> sst (slots (sh c) i) = RESERVED ->
             exists t x, lookup t (run c) = Some x /\ In i (fst (f t))
  }.

  Lemma exec_wrtn t (a : act V) s y s' l : exec E t a s = Done y s' l -> wrtn s <= wrtn s'.
  Proof.
    destruct a; simpl; unfold with_slot; intros H;
      repeat match goal with
             | H : context [if ?b then _ else _] |- _ => destruct b
             | H : context [match ?b with _ => _ end] |- _ => destruct b
             end; try discriminate; injection H as <- <- <-; simpl; lia.
  Qed.
  Lemma exec_known t (a : act V) s y s' l w : exec E t a s = Done y s' l -> w <= wrtn s ->
    fits w a y /\ known w a y <= wrtn s'.
  Proof.
    destruct a; simpl; unfold with_slot; intros H Hw;
      repeat match goal with
             | H : context [if ?b then _ else _] |- _ => destruct b
             | H : context [match ?b with _ => _ end] |- _ => destruct b
             end; try discriminate; injection H as <- <- <-; simpl; split; try exact Logic.I; lia.
  Qed.
  Lemma in_remove1 i j H : i <> j -> In i H -> In i (remove1 j H).
  Proof.
    intros N. induction H as [|u H IH]; simpl; [auto|]. destruct (Nat.eqb_spec j u) as [->|]; intros [X|Hin]; simpl; auto; congruence.
  Qed.
  Lemma exec_held t (a : act V) s y s' l H i : exec E t a s = Done y s' l -> i < cap s' -> sst (slots s' i) = RESERVED ->
    In i (held H a y) \/ (i < cap s /\ sst (slots s i) = RESERVED /\ (In i H -> In i (held H a y))) \/ a = StoreSt i RESERVED.
  Proof.
    destruct a; simpl; unfold with_slot; intros X Hi Hr;
      repeat match goal with
             | H : context [if ?b then _ else _] |- _ => let Q := fresh "Q" in destruct b eqn:Q
             | H : context [match ?b with _ => _ end] |- _ => let Q := fresh "Q" in destruct b eqn:Q
             end; try discriminate; injection X as <- <- <-; simpl in *; unfold upd in *; auto;
      repeat match goal with
             | H : context [?x =? ?y] |- _ => destruct (Nat.eqb_spec x y); subst; simpl in *; eauto 6
             end; try congruence.
    all: try (right; left; split; [assumption|]; split; [assumption|]; now apply in_remove1).
    all: try (right; right; congruence).
    unfold fill_fresh in Hr. destruct (Nat.leb_spec (cap s) i), (Nat.ltb_spec i n0); simpl in *; try discriminate; try lia; auto.
  Qed.
  Lemma acc_state t (a : act V) s y s' l i x : exec E t a s = Done y s' l -> In (AcSt i x) l ->
    (exists r, a = LoadSt i r) \/ (exists e n, a = CasSt i e n).
  Proof.
    destruct a; simpl; unfold with_slot; intros H Hin;
      repeat match goal with
             | H : context [if ?b then _ else _] |- _ => destruct b
             | H : context [match ?b with _ => _ end] |- _ => destruct b
             end; try discriminate; injection H as <- <- <-; simpl in Hin; try contradiction;
      destruct Hin as [X|[]]; try discriminate; injection X as <- _; eauto.
  Qed.

  (** The state of an element that a call sees in use was set by another call, or by the call itself
      if it is [swap(i,i)]. *)
  Definition busyev (h : list (event V)) (e : event V) : Prop :=
    match e with
    | EAcc id t (AcSt i RESERVED) =>
        exists id' t' o', open h id' t' o' /\ touches o' i /\
          (id' <> id \/ exists o, open h id t o /\ self_swap o = true)
    | _ => True
    end.

  Definition put f t v : nat -> list nat * nat := fun u => if u =? t then v else f u.

  (** How what the threads hold changes in a step. *)
  Definition moves c (l : label V) c' f f' : Prop :=
    (forall u, ~ actor u l -> f' u = f u) /\
    forall i, i < cap (sh c') -> sst (slots (sh c') i) = RESERVED ->
      (exists t, actor t l /\ In i (fst (f' t))) \/
      (i < cap (sh c) /\ sst (slots (sh c) i) = RESERVED /\
       forall u x, lookup u (run c) = Some x -> In i (fst (f u)) -> In i (fst (f' u))).
  Lemma moves_same c (l : label V) c' f : cap (sh c') = cap (sh c) -> slots (sh c') = slots (sh c) -> moves c l c' f f.
  Proof. intros H1 H2. split; [reflexivity|]. intros i. rewrite H1, H2. auto. Qed.

  Lemma step_holds c l c' f : execution E ro nl l0 c0 m0 c -> holds c f -> each busyev (hist c) ->
    client E ro nl (length l0) c l -> step E c l = Next c' -> exists f', holds c' f' /\ each busyev (hist c') /\ moves c l c' f f'.
  Proof.
    intros X K HE C S. destruct (execution_world E ro nl l0 c0 m0 c X) as (snap & g & [G HB _ _]).
    pose proof (b_nd _ _ _ HB) as ND.
    destruct l as [t o|t| |k]; simpl in S.
    - destruct (lookup t (run c)) eqn:Lk; [discriminate|]. destruct (has_grant o (given c)); [|discriminate]. injection S as <-.
      exists (put f t ([], 0)). destruct C as [(_ & NM & _) _]. split; [|split; [simpl; apply each_snoc; [assumption|exact Logic.I]|]]; cycle 1.
      { split; unfold put.
        - intros u Nu. simpl in Nu. destruct (Nat.eqb_spec u t) as [->|]; [congruence|reflexivity].
        - intros i Hi Hr. right. split; [exact Hi|]. split; [exact Hr|]. intros u x Lu. destruct (Nat.eqb_spec u t) as [->|]; [congruence|auto]. }
      constructor; simpl; unfold put.
      + intros u x. destruct (Nat.eqb_spec u t) as [->|]; [|apply K]. intros [= <-]. simpl. now apply op_quiet.
      + intros u x i. destruct (Nat.eqb_spec u t) as [->|]; [|apply K]. intros _ [].
      + intros u x. destruct (Nat.eqb_spec u t) as [->|]; [|apply K]. simpl. lia.
      + intros i Hi Hr. destruct (k_lock _ _ K i Hi Hr) as (u & x & Lu & Hin). exists u, x.
        destruct (Nat.eqb_spec u t) as [->|]; [congruence|]. auto.
    - unfold step_thread in S. destruct (lookup t (run c)) as [x|] eqn:Lk; [|discriminate].
      pose proof (k_calm _ _ K t x Lk) as Cx.
      assert (ACT : forall a k y s' l, (c_prog x = Act a k \/ exists again, c_prog x = Spin a again k) ->
                exec E t a (sh c) = Done y s' l -> c' = after t c x (k y) s' l -> exists f', holds c' f' /\ each busyev (hist c') /\ moves c (LStep t) c' f f').
      { intros a k y s' l Hp Ex ->. destruct (run_phase E l0 c _ t x a k y s' l HB Lk Hp eq_refl) as [R1 R2].
        assert (Fr : free (self_swap (c_op x)) (fst (f t)) a /\ forall z, fits (snd (f t)) a z ->
                  calm (self_swap (c_op x)) (waits_holding E (c_op x)) (fun _ H _ => H = []) (held (fst (f t)) a z) (known (snd (f t)) a z) (k z)).
        { destruct Hp as [Hp|(ag & Hp)]; rewrite Hp in Cx; [exact Cx|]. destruct Cx as [_ Cx]. exact Cx. }
        destruct Fr as [Fr Cy].
        destruct (exec_known _ _ _ _ _ _ (snd (f t)) Ex (k_len _ _ K t x Lk)) as [Ft Kn].
        exists (put f t (held (fst (f t)) a y, known (snd (f t)) a y)). split; [|split]; cycle 2.
        - split; unfold put.
          + intros u Nu. simpl in Nu. destruct (Nat.eqb_spec u t) as [->|]; [congruence|reflexivity].
          + intros i Hi Hr. simpl in Hi, Hr.
            destruct (exec_held _ _ _ _ _ _ (fst (f t)) i Ex Hi Hr) as [Hin|[(H1 & H2 & H3)|H1]].
            * left. exists t. rewrite Nat.eqb_refl. split; [reflexivity|exact Hin].
            * right. split; [exact H1|]. split; [exact H2|]. intros u z _. destruct (Nat.eqb_spec u t) as [->|]; auto.
            * now apply R2 in H1.
        - constructor; unfold put.
          + intros u z. rewrite after_lookup' by assumption. destruct (Nat.eqb_spec u t) as [->|]; [|apply K].
            intros [= <-]. simpl. now apply Cy.
          + intros u z i. rewrite after_lookup' by assumption. destruct (Nat.eqb_spec u t) as [->|]; [|apply K].
            intros [= <-]. simpl. intros Hin.
            assert (In i (fst (f t)) \/ exists e n, a = CasSt i e n) as [Hi|(e & n & ->)].
            { clear - Hin. destruct a; simpl in Hin; auto.
              - destruct (fst y); [|auto]. destruct Hin as [->|Hin]; eauto.
              - left. clear - Hin. induction (fst (f t)) as [|u H IH]; simpl in *; [exact Hin|].
                destruct (i0 =? u); [auto|]. destruct Hin; auto. }
            * eapply (k_touch _ _ K); eauto.
            * eapply R1; reflexivity.
          + intros u z. rewrite after_lookup' by assumption. pose proof (exec_wrtn _ _ _ _ _ _ Ex) as Mw.
            destruct (Nat.eqb_spec u t) as [->|]; [intros _; exact Kn|]. intros Lu. pose proof (k_len _ _ K u z Lu). simpl. lia.
          + intros i Hi Hr. simpl in Hi, Hr.
            destruct (exec_held _ _ _ _ _ _ (fst (f t)) i Ex Hi Hr) as [Hin|[(H1 & H2 & H3)|H1]].
            * exists t. eexists. rewrite after_lookup' by assumption. rewrite Nat.eqb_refl. split; [reflexivity|exact Hin].
            * destruct (k_lock _ _ K i H1 H2) as (u & z & Lu & Hin). exists u. rewrite after_lookup' by assumption.
              destruct (Nat.eqb_spec u t) as [->|]; [|eauto]. eexists. split; [reflexivity|]. simpl. auto.
            * now apply R2 in H1.
        - simpl. destruct (acc_list _ _ _ _ _ _ _ Ex) as [->|(z & -> & Hz)]; simpl; [now rewrite app_nil_r|].
          apply each_snoc; [assumption|]. simpl. destruct z as [| | | | |i z| |]; try exact Logic.I. destruct z; try exact Logic.I.
          destruct (Hz _ eq_refl) as [H1 H2]. destruct (k_lock _ _ K i H1 H2) as (u & z & Lu & Hin).
          pose proof (gi_run _ _ _ _ _ _ _ _ G u z Lu) as (Ou & _). pose proof (gi_run _ _ _ _ _ _ _ _ G t x Lk) as (Ot & _).
          exists (c_id z), u, (c_op z). split; [exact Ou|]. split; [eapply (k_touch _ _ K); eauto|].
          destruct (self_swap (c_op x)) eqn:Ss; [right; eauto|].
          left. intros Eid. assert (u = t).
          { destruct Ou as [O1 _], Ot as [O2 _]. rewrite Eid in O1. congruence. }
          subst u. rewrite Lk in Lu. injection Lu as <-.
          destruct (acc_state _ _ _ _ _ _ i RESERVED Ex ltac:(simpl; auto)) as [(r & ->)|(e & n & ->)]; simpl in Fr.
          + contradiction.
          + destruct Fr as [Fr|Fr]; [congruence|contradiction]. }
      assert (END : forall h', fst (f t) = [] -> hist c' = h' -> run c' = remove t (run c) -> sh c' = sh c -> each busyev h' ->
                exists f', holds c' f' /\ each busyev (hist c') /\ moves c (LStep t) c' f f').
      { intros h' Hf <- Hrun Hsh He. exists f. split; [|split; [assumption|apply moves_same; now rewrite Hsh]]. constructor.
        - intros u z Lu. rewrite Hrun in Lu. apply remove_lookup in Lu; [|assumption]. now apply K.
        - intros u z i Lu. rewrite Hrun in Lu. apply remove_lookup in Lu; [|assumption]. now apply K.
        - intros u z Lu. rewrite Hrun in Lu. apply remove_lookup in Lu; [|assumption]. rewrite Hsh. eapply (k_len _ _ K); eauto.
        - intros i. rewrite Hsh. intros Hi Hr. destruct (k_lock _ _ K i Hi Hr) as (u & z & Lu & Hin). exists u, z.
          split; [|assumption]. rewrite Hrun. rewrite lookup_remove_other; [assumption|]. intros ->. rewrite Hf in Hin. destruct Hin. }
      destruct (c_prog x) as [r|m'|a k|a ag k] eqn:Hp.
      + injection S as <-. eapply END; try reflexivity; [exact Cx|]. simpl. apply each_snoc; [assumption|exact Logic.I].
      + injection S as <-. eapply END; try reflexivity; [exact Cx|]. simpl. apply each_snoc; [assumption|exact Logic.I].
      + destruct (exec E t a (sh c)) eqn:Ex; [|discriminate]. injection S as <-. eapply ACT; eauto.
      + destruct (exec E t a (sh c)) eqn:Ex; [|discriminate]. destruct (ag x0) eqn:Ag; injection S as <-; [|eapply ACT; eauto].
        exists f. split; [assumption|]. split; [assumption|]. now apply moves_same.
    - destruct (run c) eqn:R; [|discriminate]. unfold clear in S.
      destruct (resv (sh c) <=? cap (sh c)); [|discriminate]. injection S as <-.
      exists f. split; [|split; [simpl; apply each_snoc; [assumption|exact Logic.I]|]].
      + constructor; simpl; try discriminate. intros i _. destruct i; discriminate.
      + split; [reflexivity|]. simpl. intros i _. destruct i; discriminate.
    - destruct (run c) eqn:R; [|discriminate]. unfold reserve_maximum_capacity in S.
      destruct (reserve E (cap (sh c)) (maxc (sh c)) k); injection S as <-;
        [|exists f; split; [assumption|]; split; [assumption|]; now apply moves_same].
      exists f. split; [|split; [simpl; apply each_snoc; [assumption|exact Logic.I]|now apply moves_same]]. constructor; simpl; try discriminate.
      intros i Hi Hr. destruct (k_lock _ _ K i Hi Hr) as (u & z & Lu & _). rewrite R in Lu. discriminate.
  Qed.

  (** The element locks of the ghost state are the ones held. *)
  Definition owned (g : nat -> gst V) f : Prop := forall i u m, g i = GLock u m -> In i (fst (f u)).

  Theorem execution_owned c : execution E ro nl l0 c0 m0 c ->
    exists snap g f, world E ro nl l0 m0 c snap g /\ holds c f /\ each busyev (hist c) /\ owned g f.
  Proof.
    intros (EOK & H1 & H2 & H3 & R). induction R as [|c l c' R IH C S].
    - assert (X : execution E ro nl l0 c0 m0 (start l0 c0 m0)) by (repeat (split; [assumption|]); constructor).
      destruct (execution_world E ro nl l0 c0 m0 _ X) as (snap & g & W). exists snap, g, (fun _ => ([], 0)).
      split; [exact W|]. split; [|split; [apply each_nil|]].
      + constructor; simpl; try discriminate. intros i Hi Hr. destruct (nth_error (map Some l0) i) as [[v|]|]; discriminate.
      + intros i u m Hg. pose proof (i_slot _ _ _ _ (gi_inv _ _ _ _ _ _ _ _ (w_gi _ _ _ _ _ _ _ _ W)) i) as Sl. rewrite Hg in Sl.
        assert (Hr : sst (slots (init l0 c0 m0) i) = RESERVED) by (destruct m; apply Sl).
        simpl in Hr. destruct (nth_error (map Some l0) i) as [[v|]|]; discriminate.
    - destruct IH as (snap & g & f & W & K & He & Ow).
      assert (X : execution E ro nl l0 c0 m0 c) by (repeat (split; [assumption|]); exact R).
      destruct (step_holds c l c' f X K He C S) as (f' & K' & He' & (M1 & M2)).
      destruct (step_world E ro nl l0 c0 m0 EOK c snap g l c' W C S) as (snap' & g' & W' & O).
      exists snap', g', f'. repeat (split; [assumption|]). intros i u m Hg.
      pose proof (i_slot _ _ _ _ (gi_inv _ _ _ _ _ _ _ _ (w_gi _ _ _ _ _ _ _ _ W')) i) as Sl. rewrite Hg in Sl.
      assert (Hr : i < cap (sh c') /\ sst (slots (sh c') i) = RESERVED) by (destruct m; split; apply Sl).
      assert (One : forall w1 w2, actor w1 l -> actor w2 l -> w1 = w2) by (intros w1 w2; destruct l; simpl; congruence || tauto).
      assert (Ad : forall w, {actor w l} + {~ actor w l}) by (intros w; destruct l; simpl; [apply Nat.eq_dec|apply Nat.eq_dec|right; tauto|right; tauto]).
      destruct Hr as [Hi Hr]. destruct (M2 i Hi Hr) as [(t & At & Hin)|(B1 & B2 & B3)].
      + destruct (Ad u) as [Au|Nu]; [rewrite (One u t); assumption|].
        rewrite M1 by assumption. apply (Ow i u m). apply (own_lock u (g' i) (g i) m); [now apply O|assumption].
      + destruct (locked_by E ro nl l0 m0 c snap g i (w_gi _ _ _ _ _ _ _ _ W) B1 B2) as (w & m' & y & Hw & Ly).
        destruct (Nat.eq_dec w u) as [->|N]; [apply (B3 u y Ly), (Ow i u m' Hw)|]. exfalso.
        destruct (Ad w) as [Aw|Nw].
        * assert (Nu : ~ actor u l) by (intros Au; apply N; now apply One).
          assert (g i = GLock u m) by (apply (own_lock u (g' i) (g i) m); [now apply O|assumption]). congruence.
        * assert (g' i = GLock w m') by (apply (own_lock w (g i) (g' i) m'); [symmetry; now apply O|assumption]). congruence.
  Qed.

  Theorem execution_holds c : execution E ro nl l0 c0 m0 c -> exists f, holds c f /\ each busyev (hist c).
  Proof. intros X. destruct (execution_owned c X) as (snap & g & f & _ & K & He & _). eauto. Qed.
End Exec.
