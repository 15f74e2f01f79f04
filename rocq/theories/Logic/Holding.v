(** * A call refers to the value of an element only while it holds its handle.

    Not for the unsafe methods, which take a reference without a handle. *)

From Coq Require Import List Arith Bool Lia.
From Verif.Model Require Import Prog Mem Deps State Elem Vec Excl Machine.
From Verif Require Import Client.
From Verif.Logic Require Import Locks.
Import ListNotations.

Section Programs.
  Context {V : Type} (E : env V).
  Notation prog := (prog V).

  (** [H]: the elements whose handles the call holds ([Locks.held]) *)
  Definition lok (H : list nat) (a : act V) : Prop :=
    match a with
    | RdEnd i | WrEnd i _ => In i H
    | CasSt _ e n => e <> RESERVED /\ n = RESERVED
    | _ => True
    end.
  Fixpoint lh {R} (Q : R -> list nat -> Prop) (H : list nat) (p : prog R) : Prop :=
    match p with
    | Ret r => Q r H
    | Pan _ => True
    | Act a k | Spin a _ k => lok H a /\ forall x, lh Q (held H a x) (k x)
    end.
  Definition lo {R} (p : prog R) : Prop := lh (fun _ H => H = []) [] p.

  Lemma lh_bind {A B} Q Q' (p : prog A) (f : A -> prog B) : forall H,
    lh Q H p -> (forall x H, Q x H -> lh Q' H (f x)) -> lh Q' H (bind p f).
  Proof.
    induction p as [r|m|a k IH|a g k IH]; intros H C F; simpl in *; auto; destruct C as [C1 C2]; split; auto.
  Qed.
  Lemma lo_bind {A B} (p : prog A) (f : A -> prog B) : lo p -> (forall x, lo (f x)) -> lo (bind p f).
  Proof. intros H F. eapply lh_bind; [exact H|]. intros x H' ->. apply F. Qed.
  Lemma lo_fmap {A B} (f : A -> B) (p : prog A) : lo p -> lo (fmap f p).
  Proof. intros H. apply lo_bind; [assumption|]. intros x. reflexivity. Qed.
  Lemma lo_ret {A} (x : A) : lo (Ret x).
  Proof. reflexivity. Qed.
  Lemma lo_pan {A} m : lo (R := A) (Pan m).
  Proof. exact I. Qed.
  Lemma lo_chk {A} m (o : option A) : lo (chk m o).
  Proof. destruct o; [reflexivity|exact I]. Qed.
  Lemma lo_mapP {A B} (f : A -> prog B) l : (forall x, lo (f x)) -> lo (mapP f l).
  Proof. intros H. induction l; simpl; [apply lo_ret|]. apply lo_bind; [apply H|]. intros y. apply lo_bind; [assumption|]. intros; apply lo_ret. Qed.
  Lemma lo_foldP {A B} (f : B -> A -> prog B) l : forall b, (forall b x, lo (f b x)) -> lo (foldP f b l).
  Proof. induction l; intros b H; simpl; [apply lo_ret|]. apply lo_bind; [apply H|]. intros y. now apply IHl. Qed.

  Ltac one := repeat first [ split; [exact I|] | intro ]; try reflexivity.
  Lemma lo_act a : lok [] a -> (forall x, held [] a x = []) -> lo (doo a).
  Proof. intros H1 H2. split; [assumption|]. intros x. simpl. apply H2. Qed.
  Lemma lh_spin H i : lh (fun (b : bool) H' => H' = if b then i :: H else H) H (spin_handle (V := V) i SOME).
  Proof. split; [split; [discriminate|reflexivity]|]. intros x. reflexivity. Qed.
  Lemma lh_try H i : lh (fun (b : bool) H' => H' = if b then i :: H else H) H (try_handle (V := V) i SOME).
  Proof. split; [split; [discriminate|reflexivity]|]. intros x. reflexivity. Qed.
  Lemma lo_locked i {A} (p q : prog A) : lh (fun _ H => H = []) [i] p -> lo q -> lo (bind (spin_handle i SOME) (fun h : bool => if h then p else q)).
  Proof. intros H H'. eapply lh_bind; [apply lh_spin|]. intros [|] h ->; assumption. Qed.
  Local Ltac rd := cbn [held remove1]; rewrite ?Nat.eqb_refl.
  Lemma lo_map {U} i (f : V -> option U) : lo (option_map i f).
  Proof.
    apply lo_locked; [|apply lo_ret]. split; [exact I|]. intros ?. split; [simpl; auto|]. intros v.
    split; [exact I|]. intros ?. rd. destruct (f v); [reflexivity|exact I].
  Qed.
  Lemma lo_replace i v : lo (option_replace i v).
  Proof. apply lo_locked; [|apply lo_ret]. split; [exact I|]. intros ?. split; [simpl; auto|]. intros u. split; [exact I|]. intros ?. rd. reflexivity. Qed.
  Lemma lo_set i v : lo (option_set_some i v).
  Proof. apply lo_locked; [|apply lo_ret]. split; [exact I|]. intros ?. split; [simpl; auto|]. intros u. split; [exact I|]. intros ?. rd. reflexivity. Qed.
  Lemma lo_update i f : lo (option_update (V := V) i f).
  Proof.
    apply lo_locked; [|apply lo_ret]. split; [exact I|]. intros ?. split; [simpl; auto|]. intros u.
    split; [exact I|]. intros ?. rd. destruct (snd (f u)); [reflexivity|exact I].
  Qed.
  Lemma lo_cloned i : lo (elem_cloned (V := V) i).
  Proof. apply lo_bind; [apply lo_map|]. intros; apply lo_chk. Qed.
  Lemma lo_elem_map {U} i (f : V -> option U) : lo (elem_map i f).
  Proof. apply lo_bind; [apply lo_map|]. intros; apply lo_chk. Qed.
  Lemma lo_elem_set i v : lo (elem_set (V := V) i v).
  Proof. apply lo_bind; [apply lo_set|]. intros [|]; [apply lo_ret|apply lo_pan]. Qed.

  Lemma lo_count k : forall i, lo (count_pushed (V := V) i k).
  Proof.
    induction k as [|k IH]; intros i; cbn [count_pushed]; [apply lo_ret|]. apply lo_bind.
    - apply lo_bind; [now apply lo_act|]. intros; apply lo_ret.
    - intros [|]; [apply lo_bind; [apply IH|intros; apply lo_ret]|apply lo_ret].
  Qed.
  Lemma lo_reserved : lo (reserved_len (V := V)).
  Proof. unfold reserved_len. one. Qed.
  Lemma lo_range a b : lo (core_iter_over_range (V := V) a b).
  Proof. one. Qed.
  Lemma lo_len : lo (vec_len (V := V)).
  Proof.
    unfold vec_len. repeat first [apply lo_bind; [first [now apply lo_act|apply lo_reserved|apply lo_range|apply lo_count]|intros]
      |match goal with |- lo (if ?b then _ else _) => destruct b end|apply lo_ret].
  Qed.
  Ltac la := repeat first
    [ apply lo_ret | apply lo_pan | apply lo_chk | apply lo_len | apply lo_reserved | apply lo_range | apply lo_cloned | apply lo_elem_map
    | apply lo_elem_set | apply lo_map | apply lo_replace | apply lo_update | now apply lo_act
    | apply lo_bind; [|intros] | apply lo_fmap | apply lo_mapP; intros | apply lo_foldP; intros
    | match goal with |- lo (match ?x with _ => _ end) => destruct x end
    | assumption ].
  Lemma lo_slice r : lo (vec_slice E r).
  Proof. unfold vec_slice. la. Qed.
  Lemma lo_get i : lo (vec_get (V := V) i).
  Proof. unfold vec_get, core_get, core_capacity. la. Qed.
  Lemma lo_iter : lo (vec_iter (V := V)).
  Proof. unfold vec_iter, core_iter. la. Qed.
  Lemma lo_slice_get x i : lo (slice_get (V := V) x i).
  Proof. unfold slice_get, core_get, core_capacity. la. Qed.
  Lemma lo_slice_slice x r : lo (slice_slice E x r).
  Proof. unfold slice_slice. la. Qed.
  Lemma lo_fill_with l f : forall k, lo (fill_elems_with (V := V) k l f).
  Proof. induction l as [|e l IH]; intros k; cbn [fill_elems_with]; la. apply IH. Qed.
  Lemma lo_position l v : forall k, lo (position E k l v).
  Proof. induction l as [|e l IH]; intros k; cbn [position]; la. apply IH. Qed.
  Lemma lo_map_elems {U} l : forall f : nat -> V -> option U, lo (map_elems l f).
  Proof. induction l as [|e l IH]; intros f; cbn [map_elems]; la. apply IH. Qed.
  Lemma lo_fold_elems {U} l : forall (u : U) (f : nat -> U -> V -> option U), lo (fold_elems l u f).
  Proof. induction l as [|e l IH]; intros u f; cbn [fold_elems]; la. apply IH. Qed.
  Lemma lo_filter l : forall f, lo (filter_elems (V := V) l f).
  Proof. induction l as [|e l IH]; intros f; cbn [filter_elems]; la. apply IH. Qed.
  Lemma lo_eq l : forall vs, lo (eq_elems_list E l vs).
  Proof. induction l as [|e l IH]; intros [|v vs]; cbn [eq_elems_list]; la. apply IH. Qed.
  Lemma lo_fmt l : lo (fmt_elems (V := V) l).
  Proof. unfold fmt_elems. la. Qed.
  Lemma lo_refs l : lo (refs_of (V := V) l).
  Proof. induction l as [|e l IH]; cbn [refs_of]; unfold is_some_with_order; la. Qed.
  Lemma lo_get_ref i : lo (vec_get_ref (V := V) i).
  Proof. unfold vec_get_ref, core_get, core_capacity. la. Qed.
  Lemma lo_init i v : lo (initialize_unchecked (V := V) i v).
  Proof. unfold initialize_unchecked. la. Qed.
  Lemma lo_write_items n : forall i it, lo (write_items (V := V) i n it).
  Proof. induction n as [|n IH]; intros i it; cbn [write_items]; [apply lo_ret|]. destruct it as [|[v|] it]; la; apply IH. Qed.
  Lemma lo_grow n : lo (grow_to (V := V) n).
  Proof. unfold grow_to. la. Qed.
  Lemma lo_single i : lo (single_item_as_ref (V := V) i).
  Proof. unfold single_item_as_ref. la. split; [exact I|]. intros c. destruct (write_permit i c); first [apply lo_grow|apply lo_ret]. Qed.
  Lemma lo_buffer b n : lo (n_items_buffer E b n).
  Proof. unfold n_items_buffer. la. split; [exact I|]. intros c. destruct (write_permit_n_items _ _ c); first [apply lo_grow|apply lo_ret]. Qed.
  (** [swap] takes two handles; what it does in between leaves the first one alone *)
  Definition keep {R} (p : prog R) : Prop := forall H, lh (fun _ H' => H' = H) H p.
  Lemma keep_bind {A B} (p : prog A) (f : A -> prog B) : keep p -> (forall x, keep (f x)) -> keep (bind p f).
  Proof. intros H F h. eapply lh_bind; [apply H|]. intros x H' ->. apply F. Qed.
  Lemma keep_ret {A} (x : A) : keep (Ret x).
  Proof. intros H. reflexivity. Qed.
  Lemma keep_act a : lok [] a -> (forall H x, held H a x = H) -> (forall H, lok [] a -> lok H a) -> keep (doo a).
  Proof. intros H1 H2 H3 H. split; [auto|]. intros x. simpl. apply H2. Qed.
  Ltac ke := repeat first [apply keep_ret | apply keep_bind; [|intros] | apply keep_act; [exact I|reflexivity|intros ? ?; exact I]
    | match goal with |- keep (match ?x with _ => _ end) => destruct x end ].
  Lemma keep_count k : forall i, keep (count_pushed (V := V) i k).
  Proof. induction k as [|k IH]; intros i; cbn [count_pushed]; [apply keep_ret|]. unfold is_some_with_order. ke. apply IH. Qed.
  Lemma keep_len : keep (vec_len (V := V)).
  Proof. unfold vec_len, reserved_len, core_iter_over_range. ke. all: apply keep_count. Qed.
  Lemma lh_mut_handle H i : lh (fun o H' => H' = match o with Some x => x :: H | None => H end) H (vec_mut_handle E i SOME).
  Proof.
    unfold vec_mut_handle. eapply lh_bind; [apply keep_len|]. intros n h ->. destruct (i <? n); [|reflexivity].
    eapply lh_bind; [assert (K : keep (core_get (V := V) i)) by (unfold core_get, core_capacity; ke); apply K|]. intros [e|] h ->; [|reflexivity].
    unfold option_mut_handle. destruct (hspin E).
    - eapply lh_bind; [apply lh_spin|]. intros [|] h ->; reflexivity.
    - eapply lh_bind; [apply lh_try|]. intros [|] h ->; reflexivity.
  Qed.
  Lemma lo_swap i j : lo (vec_swap E i j).
  Proof.
    unfold vec_swap. eapply lh_bind; [apply lh_mut_handle|]. intros hi h ->. eapply lh_bind; [apply lh_mut_handle|]. intros hj h ->.
    destruct hi as [x|], hj as [y|]; unfold drop_opt, drop_handle; cbn [bind doo]; repeat first [reflexivity | split; [exact I|]; intros ?; rd].
  Qed.
  Ltac lb := repeat lazymatch goal with
    | |- lo (fmap _ _) => apply lo_fmap
    | |- lo (bind _ _) => apply lo_bind; [|intros]
    | |- lo (doo _) => apply lo_act; [exact I|reflexivity]
    | |- lo (Ret _) => apply lo_ret
    | |- lo (Pan _) => apply lo_pan
    | |- lo (chk _ _) => apply lo_chk
    | |- lo (mapP _ _) => apply lo_mapP; intros
    | |- lo (foldP _ _ _) => apply lo_foldP; intros
    | |- lo (match ?x with _ => _ end) => destruct x
    | |- lo vec_len => apply lo_len
    | |- lo (vec_slice _ _) => apply lo_slice
    | |- lo (vec_get _) => apply lo_get
    | |- lo vec_iter => apply lo_iter
    | |- lo (slice_get _ _) => apply lo_slice_get
    | |- lo (slice_slice _ _ _) => apply lo_slice_slice
    | |- lo (fill_elems_with _ _ _) => apply lo_fill_with
    | |- lo (position _ _ _ _) => apply lo_position
    | |- lo (map_elems _ _) => apply lo_map_elems
    | |- lo (fold_elems _ _ _) => apply lo_fold_elems
    | |- lo (filter_elems _ _) => apply lo_filter
    | |- lo (eq_elems_list _ _ _) => apply lo_eq
    | |- lo (fmt_elems _) => apply lo_fmt
    | |- lo (refs_of _) => apply lo_refs
    | |- lo (vec_get_ref _) => apply lo_get_ref
    | |- lo (initialize_unchecked _ _) => apply lo_init
    | |- lo (write_items _ _ _) => apply lo_write_items
    | |- lo (single_item_as_ref _) => apply lo_single
    | |- lo (n_items_buffer _ _ _) => apply lo_buffer
    | |- lo (vec_swap _ _ _) => apply lo_swap
    | |- lo reserved_len => apply lo_reserved
    | |- lo (core_iter_over_range _ _) => apply lo_range
    | |- lo (elem_cloned _) => apply lo_cloned
    | |- lo (elem_map _ _) => apply lo_elem_map
    | |- lo (elem_set _ _) => apply lo_elem_set
    | |- lo (option_map _ _) => apply lo_map
    | |- lo (option_replace _ _) => apply lo_replace
    | |- lo (option_update _ _) => apply lo_update
    | |- lo ?p => let rec hd t := lazymatch t with ?f _ => hd f | _ => t end in let h := hd p in unfold h
    end.
  Lemma op_lo o : allowed E false false o -> lo (op_prog E o).
  Proof.
    intros Al. destruct o; cbn [op_prog]; try solve [lb].
    - exfalso. simpl in Al. now destruct Al.
    - exfalso. simpl in Al. now destruct Al.
  Qed.
End Programs.
