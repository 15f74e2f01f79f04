(** * Which values a call has a reference to while it runs.

    A call has a reference to a value from the beginning of a read or a write until its end.  Without
    the unsafe methods no two calls have one to the same value. *)

From Coq Require Import List Arith Bool Lia.
From Verif.Model Require Import Prog Mem Deps State Elem Vec Excl Machine Reentrant.
From Verif Require Import Client Spec Nested.
From Verif.Logic Require Import Inv WP Post Specs Ops Sound Shape Clients Hist.
Import ListNotations.

Section Programs.
  Context {V : Type} (E : env V).
  Notation prog := (prog V).

  Notation drop i H := (List.remove Nat.eq_dec i H).
  Definition bnext (H : list nat) (a : act V) : list nat :=
    match a with
    | RdBeg i | WrBeg i => i :: H
    | RdEnd i | WrEnd i _ => drop i H
    | SwapEnd i j => drop i (drop j H)
    | _ => H
    end.
  Definition bok (H : list nat) (a : act V) : Prop :=
    match a with
    | RdEnd i | WrEnd i _ => In i H
    | SwapEnd i j => In i H /\ In j H
    | InitEnd i _ => ~ In i H
    | _ => True
    end.
  Fixpoint bor {R} (Q : list nat -> Prop) (H : list nat) (p : prog R) : Prop :=
    match p with
    | Ret _ => Q H
    | Pan _ => True
    | Act a k | Spin a _ k => bok H a /\ forall x, bor Q (bnext H a) (k x)
    end.
  Definition bo {R} (p : prog R) : Prop := bor (eq []) [] p.

  Lemma bor_bind {A B} Q Q' (p : prog A) (f : A -> prog B) : forall H,
    bor Q H p -> (forall x H, Q H -> bor Q' H (f x)) -> bor Q' H (bind p f).
  Proof.
    induction p as [r|m|a k IH|a g k IH]; intros H C F; simpl in *; auto; destruct C as [C1 C2]; split; auto.
  Qed.
  Lemma bo_bind {A B} (p : prog A) (f : A -> prog B) : bo p -> (forall x, bo (f x)) -> bo (bind p f).
  Proof. intros H F. eapply bor_bind; [exact H|]. intros x H' <-. apply F. Qed.
  Lemma bo_fmap {A B} (f : A -> B) (p : prog A) : bo p -> bo (fmap f p).
  Proof. intros H. apply bo_bind; [assumption|]. intros x. reflexivity. Qed.
  Lemma bo_ret {A} (x : A) : bo (Ret x).
  Proof. reflexivity. Qed.
  Lemma bo_pan {A} m : bo (R := A) (Pan m).
  Proof. exact I. Qed.
  Lemma bo_chk {A} m (o : option A) : bo (chk m o).
  Proof. destruct o; [reflexivity|exact I]. Qed.
  Lemma bo_mapP {A B} (f : A -> prog B) l : (forall x, bo (f x)) -> bo (mapP f l).
  Proof. intros H. induction l; simpl; [apply bo_ret|]. apply bo_bind; [apply H|]. intros y. apply bo_bind; [assumption|]. intros; apply bo_ret. Qed.
  Lemma bo_foldP {A B} (f : B -> A -> prog B) l : forall b, (forall b x, bo (f b x)) -> bo (foldP f b l).
  Proof. induction l; intros b H; simpl; [apply bo_ret|]. apply bo_bind; [apply H|]. intros y. now apply IHl. Qed.

  Ltac one := repeat first [ split; [exact I|] | intro ]; try reflexivity.
  Lemma bo_act a : bok [] a -> bnext [] a = [] -> bo (doo a).
  Proof. intros H1 H2. split; [assumption|]. intros x. simpl. now rewrite H2. Qed.
  Lemma bo_spin i : bo (spin_handle (V := V) i SOME).
  Proof. split; [exact I|]. intros x. reflexivity. Qed.
  Lemma bo_locked i {A} (p : prog (option A)) : bo p -> bo (bind (spin_handle i SOME) (fun h : bool => if h then p else Ret None)).
  Proof. intros H. apply bo_bind; [apply bo_spin|]. intros [|]; [assumption|apply bo_ret]. Qed.
  Local Ltac rd := repeat (simpl; rewrite ?Nat.eqb_refl; try (destruct (Nat.eq_dec _ _); [|congruence])).
  Lemma bo_map {U} i (f : V -> option U) : bo (option_map i f).
  Proof.
    apply bo_locked. split; [exact I|]. intros ?. split; [simpl; auto|]. intros v. rd.
    split; [exact I|]. intros ?. rd. destruct (f v); [reflexivity|exact I].
  Qed.
  Lemma bo_replace i v : bo (option_replace i v).
  Proof. apply bo_locked. split; [exact I|]. intros ?. split; [simpl; auto|]. intros u. rd. split; [exact I|]. intros ?. rd. reflexivity. Qed.
  Lemma bo_set i v : bo (option_set_some i v).
  Proof.
    apply bo_bind; [apply bo_spin|]. intros [|]; [|apply bo_ret]. split; [exact I|]. intros ?. split; [simpl; auto|]. intros u. rd.
    split; [exact I|]. intros ?. rd. reflexivity.
  Qed.
  Lemma bo_update i f : bo (option_update (V := V) i f).
  Proof.
    apply bo_bind; [apply bo_spin|]. intros [|]; [|apply bo_ret]. split; [exact I|]. intros ?. split; [simpl; auto|]. intros u. rd.
    split; [exact I|]. intros ?. rd. destruct (snd (f u)); [reflexivity|exact I].
  Qed.
  Lemma bo_cloned i : bo (elem_cloned (V := V) i).
  Proof. apply bo_bind; [apply bo_map|]. intros; apply bo_chk. Qed.
  Lemma bo_elem_map {U} i (f : V -> option U) : bo (elem_map i f).
  Proof. apply bo_bind; [apply bo_map|]. intros; apply bo_chk. Qed.
  Lemma bo_elem_set i v : bo (elem_set (V := V) i v).
  Proof. apply bo_bind; [apply bo_set|]. intros [|]; [apply bo_ret|apply bo_pan]. Qed.

  Lemma bo_count k : forall i, bo (count_pushed (V := V) i k).
  Proof.
    induction k as [|k IH]; intros i; cbn [count_pushed]; [apply bo_ret|]. apply bo_bind.
    - apply bo_bind; [now apply bo_act|]. intros; apply bo_ret.
    - intros [|]; [apply bo_bind; [apply IH|intros; apply bo_ret]|apply bo_ret].
  Qed.
  Lemma bo_reserved : bo (reserved_len (V := V)).
  Proof. unfold reserved_len. one. Qed.
  Lemma bo_range a b : bo (core_iter_over_range (V := V) a b).
  Proof. one. Qed.
  Lemma bo_len : bo (vec_len (V := V)).
  Proof.
    unfold vec_len. repeat first [apply bo_bind; [first [now apply bo_act|apply bo_reserved|apply bo_range|apply bo_count]|intros]
      |match goal with |- bo (if ?b then _ else _) => destruct b end|apply bo_ret].
  Qed.
  Ltac ba := repeat first
    [ apply bo_ret | apply bo_pan | apply bo_chk | apply bo_len | apply bo_reserved | apply bo_range | apply bo_cloned | apply bo_elem_map
    | apply bo_elem_set | apply bo_map | apply bo_replace | apply bo_update | apply bo_spin | now apply bo_act
    | apply bo_bind; [|intros] | apply bo_fmap | apply bo_mapP; intros | apply bo_foldP; intros
    | match goal with |- bo (match ?x with _ => _ end) => destruct x end
    | assumption ].
  Lemma bo_slice r : bo (vec_slice E r).
  Proof. unfold vec_slice. ba. Qed.
  Lemma bo_get i : bo (vec_get (V := V) i).
  Proof. unfold vec_get, core_get, core_capacity. ba. Qed.
  Lemma bo_iter : bo (vec_iter (V := V)).
  Proof. unfold vec_iter, core_iter. ba. Qed.
  Lemma bo_slice_get x i : bo (slice_get (V := V) x i).
  Proof. unfold slice_get, core_get, core_capacity. ba. Qed.
  Lemma bo_slice_slice x r : bo (slice_slice E x r).
  Proof. unfold slice_slice. ba. Qed.
  Lemma bo_fill_with l f : forall k, bo (fill_elems_with (V := V) k l f).
  Proof. induction l as [|e l IH]; intros k; cbn [fill_elems_with]; ba. apply IH. Qed.
  Lemma bo_position l v : forall k, bo (position E k l v).
  Proof. induction l as [|e l IH]; intros k; cbn [position]; ba. apply IH. Qed.
  Lemma bo_map_elems {U} l : forall f : nat -> V -> option U, bo (map_elems l f).
  Proof. induction l as [|e l IH]; intros f; cbn [map_elems]; ba. apply IH. Qed.
  Lemma bo_fold_elems {U} l : forall (u : U) (f : nat -> U -> V -> option U), bo (fold_elems l u f).
  Proof. induction l as [|e l IH]; intros u f; cbn [fold_elems]; ba. apply IH. Qed.
  Lemma bo_filter l : forall f, bo (filter_elems (V := V) l f).
  Proof. induction l as [|e l IH]; intros f; cbn [filter_elems]; ba. apply IH. Qed.
  Lemma bo_eq l : forall vs, bo (eq_elems_list E l vs).
  Proof. induction l as [|e l IH]; intros [|v vs]; cbn [eq_elems_list]; ba. apply IH. Qed.
  Lemma bo_fmt l : bo (fmt_elems (V := V) l).
  Proof. unfold fmt_elems. ba. Qed.
  Lemma bo_refs l : bo (refs_of (V := V) l).
  Proof. induction l as [|e l IH]; cbn [refs_of]; unfold is_some_with_order; ba. Qed.
  Lemma bo_get_ref i : bo (vec_get_ref (V := V) i).
  Proof. unfold vec_get_ref, core_get, core_capacity. ba. Qed.
  Lemma bo_init i v : bo (initialize_unchecked (V := V) i v).
  Proof. unfold initialize_unchecked. ba. Qed.
  Lemma bo_write_items n : forall i it, bo (write_items (V := V) i n it).
  Proof. induction n as [|n IH]; intros i it; cbn [write_items]; [apply bo_ret|]. destruct it as [|[v|] it]; ba; apply IH. Qed.
  Lemma bo_grow n : bo (grow_to (V := V) n).
  Proof. unfold grow_to. ba. Qed.
  Lemma bo_single i : bo (single_item_as_ref (V := V) i).
  Proof. unfold single_item_as_ref. ba. split; [exact I|]. intros c. destruct (write_permit i c); first [apply bo_grow|apply bo_ret]. Qed.
  Lemma bo_buffer b n : bo (n_items_buffer E b n).
  Proof. unfold n_items_buffer. ba. split; [exact I|]. intros c. destruct (write_permit_n_items _ _ c); first [apply bo_grow|apply bo_ret]. Qed.
  Lemma bo_mut_handle i : bo (vec_mut_handle E i SOME).
  Proof. unfold vec_mut_handle, core_get, core_capacity, option_mut_handle, try_handle. ba. Qed.
  Lemma bo_swap i j : bo (vec_swap E i j).
  Proof.
    unfold vec_swap. apply bo_bind; [apply bo_mut_handle|]. intros hi. apply bo_bind; [apply bo_mut_handle|]. intros hj.
    assert (D : forall o, bo (drop_opt (V := V) o)) by (intros [|]; unfold drop_opt; ba).
    destruct hi as [x|], hj as [y|]; try (apply bo_bind; [apply D|]; intros; apply bo_bind; [apply D|]; intros; apply bo_ret).
    split; [exact I|]. intros ?. split; [exact I|]. intros ?. split; [simpl; auto|]. intros ?.
    assert (Q : bnext (bnext (bnext [] (WrBeg x)) (WrBeg y)) (SwapEnd x y) = @nil nat).
    { cbn [bnext List.remove]. destruct (Nat.eq_dec y y); [|congruence]. cbn [List.remove]. destruct (Nat.eq_dec y x); [reflexivity|].
      cbn [List.remove]. destruct (Nat.eq_dec x x); [reflexivity|congruence]. }
    rewrite Q. split; [exact I|]. intros ?. split; [exact I|]. intros ?. reflexivity.
  Qed.
  Ltac bb := repeat lazymatch goal with
    | |- bo (fmap _ _) => apply bo_fmap
    | |- bo (bind _ _) => apply bo_bind; [|intros]
    | |- bo (doo _) => apply bo_act; [exact I|reflexivity]
    | |- bo (Ret _) => apply bo_ret
    | |- bo (Pan _) => apply bo_pan
    | |- bo (chk _ _) => apply bo_chk
    | |- bo (mapP _ _) => apply bo_mapP; intros
    | |- bo (foldP _ _ _) => apply bo_foldP; intros
    | |- bo (match ?x with _ => _ end) => destruct x
    | |- bo vec_len => apply bo_len
    | |- bo (vec_slice _ _) => apply bo_slice
    | |- bo (vec_get _) => apply bo_get
    | |- bo vec_iter => apply bo_iter
    | |- bo (slice_get _ _) => apply bo_slice_get
    | |- bo (slice_slice _ _ _) => apply bo_slice_slice
    | |- bo (fill_elems_with _ _ _) => apply bo_fill_with
    | |- bo (position _ _ _ _) => apply bo_position
    | |- bo (map_elems _ _) => apply bo_map_elems
    | |- bo (fold_elems _ _ _) => apply bo_fold_elems
    | |- bo (filter_elems _ _) => apply bo_filter
    | |- bo (eq_elems_list _ _ _) => apply bo_eq
    | |- bo (fmt_elems _) => apply bo_fmt
    | |- bo (refs_of _) => apply bo_refs
    | |- bo (vec_get_ref _) => apply bo_get_ref
    | |- bo (initialize_unchecked _ _) => apply bo_init
    | |- bo (write_items _ _ _) => apply bo_write_items
    | |- bo (single_item_as_ref _) => apply bo_single
    | |- bo (n_items_buffer _ _ _) => apply bo_buffer
    | |- bo (vec_swap _ _ _) => apply bo_swap
    | |- bo reserved_len => apply bo_reserved
    | |- bo (core_iter_over_range _ _) => apply bo_range
    | |- bo (elem_cloned _) => apply bo_cloned
    | |- bo (elem_map _ _) => apply bo_elem_map
    | |- bo (elem_set _ _) => apply bo_elem_set
    | |- bo (option_map _ _) => apply bo_map
    | |- bo (option_replace _ _) => apply bo_replace
    | |- bo (option_update _ _) => apply bo_update
    | |- bo ?p => let rec hd t := lazymatch t with ?f _ => hd f | _ => t end in let h := hd p in unfold h
    end.
  Lemma op_bo o : bo (op_prog E o).
  Proof.
    destruct o; cbn [op_prog]; try solve [bb].
    - apply bo_fmap. split; [exact I|]. intros ?. split; [simpl; auto|]. intros u. rd. reflexivity.
    - apply bo_fmap. split; [exact I|]. intros ?. split; [simpl; auto|]. intros u. rd. reflexivity.
  Qed.
End Programs.

(** ** Executions *)
Section Exec.
  Context {V : Type} (E : env V) (nl : bool) (l0 : list V) (c0 m0 : nat).
  Implicit Types (c : cfg V) (s : shared V) (B : nat -> list nat).

  Definition borrowed (t i : nat) s : Prop := i < cap s /\ (In t (srd (slots s i)) \/ swr (slots s i) = Some t).

  Lemma in_remove1_other u t l : u <> t -> In t l -> In t (remove1 u l).
  Proof.
    intros N. induction l as [|x l IH]; simpl; [auto|]. intros [e|H]; destruct (Nat.eqb_spec u x); simpl; auto; congruence.
  Qed.
  Ltac ex := repeat match goal with
             | H : context [if ?b then _ else _] |- _ => let Q := fresh "Q" in destruct b eqn:Q
             | H : context [match ?b with _ => _ end] |- _ => let Q := fresh "Q" in destruct b eqn:Q
             end.
  Ltac up i0 i := unfold upd; destruct (Nat.eqb_spec i0 i); subst; simpl.
  Definition grows_only s : Prop := forall n k, policy E (cap s) (maxc s) n = Some k -> cap s <= k.
  (** A step of another thread does not end it ... *)
  Lemma borrow_other u (a : act V) s y s' l t i : u <> t -> grows_only s ->
    exec E u a s = Done y s' l -> borrowed t i s -> borrowed t i s'.
  Proof.
    intros N P X [Hi B]. destruct a; simpl in X; unfold with_slot in X; ex; try discriminate; injection X as <- <- <-; split; simpl; auto.
    all: unfold is_tid, is_none, is_nil in *; ex; try discriminate.
    all: repeat match goal with H : (_ && _)%bool = true |- _ => apply andb_prop in H as [? ?] end.
    all: unfold upd, fill_fresh; repeat match goal with |- context [?a =? ?b] => destruct (Nat.eqb_spec a b); subst; simpl in * end; auto.
    all: repeat match goal with H : (_ =? _)%nat = true |- _ => apply Nat.eqb_eq in H; subst end; try discriminate.
    all: try (destruct B as [B|B]; repeat match goal with H : srd _ = _ |- _ => rewrite H in *; simpl in * end; try tauto; try congruence;
              left; simpl; auto using in_remove1_other; fail).
    - specialize (P _ _ Q0). lia.
    - destruct (Nat.leb_spec (cap s) i); [lia|]. exact B.
  Qed.
  (** ... and one of its own thread only when it is the end of the read or write. *)
  Lemma borrow_own t (a : act V) s y s' l H : grows_only s -> bok H a -> exec E t a s = Done y s' l ->
    (forall i, In i H -> borrowed t i s) -> forall i, In i (bnext H a) -> borrowed t i s'.
  Proof.
    intros P K X B j Hj.
    assert (O : (In j H /\ (forall i, a <> RdEnd i \/ i <> j) /\ (forall i f, a <> WrEnd i f \/ i <> j) /\ (forall i k, a <> SwapEnd i k \/ i <> j /\ k <> j)) \/
                a = RdBeg j \/ a = WrBeg j).
    { destruct a; cbn [bnext] in Hj; try (left; split; [assumption|]; split; [|split]; intros; left; discriminate).
      - destruct Hj as [->|Hj]; [auto|left; split; [assumption|]; split; [|split]; intros; left; discriminate].
      - apply in_remove in Hj as [Hj N]. left. split; [assumption|]. split; [intros i0|split; intros; left; discriminate].
        destruct (Nat.eq_dec i i0); [right; congruence|left; congruence].
      - destruct Hj as [->|Hj]; [auto|left; split; [assumption|]; split; [|split]; intros; left; discriminate].
      - apply in_remove in Hj as [Hj N]. left. split; [assumption|]. split; [intros; left; discriminate|]. split; [|intros; left; discriminate].
        intros i0 f0. destruct (Nat.eq_dec i i0); [right; congruence|left; congruence].
      - apply in_remove in Hj as [Hj N]. apply in_remove in Hj as [Hj N']. left. split; [assumption|]. split; [intros; left; discriminate|].
        split; [intros; left; discriminate|]. intros i1 k1. destruct (Nat.eq_dec i i1), (Nat.eq_dec j0 k1); [right|left|left|left]; try congruence. split; congruence. }
    destruct O as [(Hi & O1 & O2 & O3)|[->| ->]].
    - destruct (B j Hi) as [Hc Bj]. destruct a; simpl in X; unfold with_slot in X; ex; try discriminate; injection X as <- <- <-; simpl in K; split; simpl; auto.
      all: unfold is_tid, is_none, is_nil in *; ex; try discriminate.
      all: repeat match goal with H : (_ && _)%bool = true |- _ => apply andb_prop in H as [? ?] end.
      all: unfold upd, fill_fresh; repeat match goal with |- context [?a =? ?b] => destruct (Nat.eqb_spec a b); subst; simpl in * end; auto.
      all: repeat match goal with H : (_ =? _)%nat = true |- _ => apply Nat.eqb_eq in H; subst end; try discriminate.
      all: try (match goal with H : forall i, RdEnd ?k <> RdEnd i \/ _ |- _ => destruct (H k); congruence end).
      all: try (match goal with H : forall i f, WrEnd ?k ?g <> WrEnd i f \/ _ |- _ => destruct (H k g); congruence end).
      all: try (match goal with H : forall i f, SwapEnd ?k ?g <> SwapEnd i f \/ _ |- _ => destruct (H k g); [congruence|tauto] end).
      all: try contradiction; try (destruct Bj as [Bj|Bj]; repeat match goal with H : srd _ = _ |- _ => rewrite H in *; simpl in * end; try tauto; try congruence;
              left; simpl; auto; fail).
      + specialize (P _ _ Q0). lia.
      + destruct (Nat.leb_spec (cap s) j); [lia|]. exact Bj.
    - simpl in X. unfold with_slot in X. ex; try discriminate. injection X as <- <- <-. apply Nat.ltb_lt in Q. split; [assumption|]. simpl. unfold upd.
      rewrite Nat.eqb_refl. simpl. auto.
    - simpl in X. unfold with_slot in X. ex; try discriminate. injection X as <- <- <-. apply Nat.ltb_lt in Q. split; [assumption|]. simpl. unfold upd.
      rewrite Nat.eqb_refl. simpl. auto.
  Qed.

  Record borrows c B : Prop := MkBorrows {
    br_prog : forall t x, lookup t (run c) = Some x -> bor (eq []) (B t) (c_prog x);
    br_slot : forall t i, In i (B t) -> borrowed t i (sh c);
    br_idle : forall t, lookup t (run c) = None -> B t = []
  }.

  Lemma grows_of c ro : execution E ro nl l0 c0 m0 c -> grows_only (sh c).
  Proof.
    intros X n k P. destruct (execution_world _ _ _ _ _ _ c X) as (snap & g & W).
    eapply (ok_pol' _ (proj1 X)); [|exact P]. apply (i_cap _ _ _ _ (gi_inv _ _ _ _ _ _ _ _ (w_gi _ _ _ _ _ _ _ _ W))).
  Qed.

  Theorem execution_borrows ro c : execution E ro nl l0 c0 m0 c -> exists B, borrows c B.
  Proof.
    intros X0. pose proof X0 as (EOK & H1 & H2 & H3 & R). induction R as [|c l c' R IH C S].
    - exists (fun _ => []). constructor; simpl; try discriminate; try contradiction; auto.
    - assert (X : execution E ro nl l0 c0 m0 c) by (refine (conj EOK (conj H1 (conj H2 (conj H3 R))))). clear X0.
      destruct (IH X) as (B & [B1 B2 B3]). pose proof (grows_of c ro X) as P.
      destruct (execution_world _ _ _ _ _ _ c X) as (snap & g & W). pose proof (b_nd _ _ _ (w_b _ _ _ _ _ _ _ _ W)) as ND.
      assert (Drop : forall t h gv, borrows (Cfg (sh c) (remove t (run c)) h gv) (fun u => if u =? t then [] else B u)).
      { intros t h gv. constructor; cbn [sh run].
        - intros u x Lk. destruct (Nat.eqb_spec u t) as [->|N]; [rewrite lookup_remove_same in Lk by assumption; discriminate|].
          rewrite lookup_remove_other in Lk by assumption. auto.
        - intros u i Hi. destruct (Nat.eqb_spec u t); [destruct Hi|auto].
        - intros u Lk. destruct (Nat.eqb_spec u t); [reflexivity|]. rewrite lookup_remove_other in Lk by assumption. auto. }
      assert (Acc : forall t x a k y s' l', lookup t (run c) = Some x -> (bok (B t) a /\ forall y, bor (eq []) (bnext (B t) a) (k y)) -> exec E t a (sh c) = Done y s' l' ->
                borrows (after t c x (k y) s' l') (fun u => if u =? t then bnext (B t) a else B u)).
      { intros t x a k y s' l' Lk [Bo Bk] Ex. constructor.
        - intros u z. rewrite after_lookup' by assumption. destruct (Nat.eqb_spec u t) as [->|N]; [intros [= <-]; apply Bk|auto].
        - intros u i Hi. cbn [after sh]. destruct (Nat.eqb_spec u t) as [->|N].
          + eapply borrow_own; eauto.
          + eapply borrow_other; eauto.
        - intros u. rewrite after_lookup' by assumption. destruct (Nat.eqb_spec u t) as [->|N]; [discriminate|auto]. }
      destruct l as [t o|t| |k]; simpl in S.
      + destruct (lookup t (run c)) eqn:Lk; [discriminate|]. destruct (has_grant o (given c)); [|discriminate]. injection S as <-.
        exists B. constructor; cbn [sh run lookup].
        * intros u x. destruct (Nat.eqb_spec u t) as [->|N]; [|auto]. intros [= <-]. rewrite (B3 t Lk). apply op_bo.
        * auto.
        * intros u. destruct (Nat.eqb_spec u t); [discriminate|auto].
      + unfold step_thread in S. destruct (lookup t (run c)) as [x|] eqn:Lk; [|discriminate]. pose proof (B1 t x Lk) as Bt.
        destruct (c_prog x) as [r|m'|a k|a ag k] eqn:Hp.
        * injection S as <-. eauto.
        * injection S as <-. eauto.
        * destruct (exec E t a (sh c)) eqn:Ex; [|discriminate]. injection S as <-. eauto.
        * destruct (exec E t a (sh c)) eqn:Ex; [|discriminate]. destruct (ag x0) eqn:Ag; injection S as <-; [|eauto]. exists B. now constructor.
      + destruct (run c) eqn:Rn; [|discriminate].
        destruct (clear (sh c)); try discriminate; injection S as <-; exists (fun _ => []); constructor; cbn [sh run]; rewrite ?Rn; try discriminate; try contradiction; auto.
      + destruct (run c) eqn:Rn; [|discriminate].
        destruct (reserve_maximum_capacity E k (sh c)) as [[m' s']| |]; try discriminate; injection S as <-; exists (fun _ => []); constructor; cbn [sh run]; rewrite ?Rn; try discriminate; try contradiction; auto.
  Qed.

  (** Without the unsafe methods a value is referred to by at most one call. *)
  Lemma borrow_unique c snap g t u i : world E false nl l0 m0 c snap g -> borrowed t i (sh c) -> borrowed u i (sh c) -> t = u.
  Proof.
    intros W [Hi Bt] [_ Bu]. pose proof (i_slot _ _ _ _ (gi_inv _ _ _ _ _ _ _ _ (w_gi _ _ _ _ _ _ _ _ W)) i) as Sl.
    destruct (g i) as [|v|v|v x| | |v [| |]]; unfold slot_ok, rdok in Sl.
    all: try (rewrite (Sl Hi) in *; simpl in *; exfalso; destruct Bt as [[]|Bt]; discriminate).
    all: try (destruct Sl as [_ Sl]; rewrite Sl in *; simpl in *; exfalso; destruct Bt as [[]|Bt]; discriminate).
    - destruct Sl as (_ & _ & S1 & S2). rewrite S1, S2 in *. simpl in *. destruct Bt as [[]|Bt], Bu as [[]|Bu]. congruence.
    - destruct Sl as (_ & _ & _ & S1 & [S2|S2]); [discriminate|]. rewrite S1, S2 in *. simpl in *. destruct Bt as [[]|Bt]. discriminate.
    - destruct Sl as (_ & _ & _ & S1 & [S2|S2]); [discriminate|]. rewrite S1, S2 in *. simpl in *. destruct Bt as [[]|Bt]. discriminate.
    - destruct Sl as (_ & _ & _ & S1 & [S2|S2]); [discriminate|]. rewrite S1, S2 in *. simpl in *.
      destruct Bt as [[Bt|[]]|Bt], Bu as [[Bu|[]]|Bu]; congruence.
    - destruct Sl as (_ & _ & _ & S1 & S2 & _). rewrite S1, S2 in *. simpl in *. destruct Bt as [[]|Bt], Bu as [[]|Bu]. congruence.
  Qed.
  (** The accesses to values are made by calls that have a reference. *)
  Lemma value_acc t (a : act V) s y s' l H i x : exec E t a s = Done y s' l -> In x l -> on_elem i x -> bok H a -> In i H.
  Proof.
    destruct a; simpl; unfold with_slot; intros X Hx On K; ex; try discriminate; injection X as <- <- <-; simpl in Hx; try contradiction;
      destruct Hx as [<-|[]]; simpl in On; try contradiction; try congruence. destruct On as [<-|<-]; apply K.
  Qed.
End Exec.
