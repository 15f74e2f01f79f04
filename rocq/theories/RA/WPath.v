(** * The accesses of a call, read off its program.

    The programs of [Model/Vec.v] fix which values a call reads and writes, in which order, and how
    its result is computed from them, whatever the memory answers.  [logs a y l]: access [a] answered
    by [y] adds [l] to the trace of the call. *)

From Coq Require Import List Arith Bool Lia.
From Verif.Model Require Import Prog Mem Deps State Elem Vec Excl Machine.
From Verif Require Import Client.
From Verif.Logic Require Import Inv WP Post Specs Shape Lin.
From Verif.RA Require Import Weak WSpecs.
Import ListNotations.
Local Arguments Nat.leb : simpl never.
Local Arguments Nat.ltb : simpl never.
Local Arguments Nat.eqb : simpl never.
Local Arguments Nat.add : simpl never.
Local Arguments Nat.sub : simpl never.

Section Path.
  Context {V : Type} (E : env V).
  Notation prog := (prog V).
  Notation acc := (acc V).
  Notation trace := (list acc).

  (** [lo]: a capacity the thread knows of *)
  Definition logs (lo : nat) (a : act V) : res a -> trace -> Prop :=
    match a return res a -> trace -> Prop with
    | AddResv n _ => fun y l => l = [AcAdd y n] /\ y + n < wmod E
    | LoadCap => fun y l => l = [] /\ lo <= y
    | RdEnd i => fun y l => l = [AcRead i y]
    | WrEnd i f => fun y l => l = [AcWrite i y (f y)]
    | SwapEnd i j => fun _ l => i <> j /\ exists v w, l = [AcSwap i j v w]
    | InitEnd i v => fun _ l => l = [AcInit i v]
    | _ => fun _ l => l = []
    end.

  (** ** Calls *)
  (** the values a growth call stores from position [b] on are those it was given *)
  Definition gives (o : op V) (b : nat) (vs : list V) : Prop := forall j v, nth_error vs j = Some v -> stores o b j v.
  (** traces of the unfinished growth calls *)
  Definition gtrace (o : op V) (tr : trace) : Prop :=
    tr = [] \/ exists b vs, tr = AcAdd b (request o) :: inits b vs /\ length vs <= request o /\ gives o b vs /\ b + request o < wmod E.

  Definition w_eq (l : list V) (a n : nat) (r : ret V) (tr : trace) : Prop :=
    exists vs b, r = RBool b /\ eff tr = reads a vs /\ length vs <= n /\ length vs <= length l /\
      if b : bool then n = length l /\ length vs = n /\ Forall2 (fun x y => eqv E x y = true) vs l
      else (exists vs' x y, vs = vs' ++ [x] /\ nth_error l (length vs') = Some y /\ eqv E x y = false /\
                            Forall2 (fun x y => eqv E x y = true) vs' (firstn (length vs') l))
           \/ Forall2 (fun x y => eqv E x y = true) vs (firstn (length vs) l).
  Definition wpost_slice (x : cslice) (o : sop V) (r : ret V) (tr : trace) : Prop :=
    let a := sl_a x in
    let n := sl_len x in
    match o with
    | SGetCloned i => (i < n /\ exists v, r = ROptVal (Some v) /\ eff tr = [AcRead (a + i) v])
                      \/ (n <= i /\ r = ROptVal None /\ eff tr = [])
    | SIterCloned | SCloneToVec => b_cloned a n r tr
    | SSwap i j => (i < n /\ j < n /\ swapped (a + i) (a + j) r tr)
                   \/ ((n <= i \/ n <= j) /\ r = RBool false /\ eff tr = [])
    | SFill v => b_fill v a n r tr
    | SFillWith f => b_fill_with f a n r tr
    | SIndexOf v => b_index_of E v a n r tr
    | SContains v => b_contains E v a n r tr
    | SMap f => b_map f a n r tr
    | SFilter f => b_filter f a n r tr
    | SFold init f => b_fold init f a n r tr
    | SReduce f => b_reduce f a n r tr
    | SEqList l => w_eq l a n r tr
    | SDebug => b_debug a n r tr
    | _ => eff tr = []
    end.
  Definition wpost (o : op V) (r : ret V) (tr : trace) : Prop :=
    match o with
    | OPush v => exists b, grow_post 1 [v] b r tr
    | OPushFor f => exists b v, f b = Some v /\ grow_post 1 [v] b r tr
    | OExtend n it | OExtendN it n => exists b vs, firstn n it = map Some vs /\ grow_post n vs b r tr
    | OExtendFor f n => exists b it vs, f b = Some (n, it) /\ firstn n it = map Some vs /\ grow_post n vs b r tr
    | OGetCloned i | OGetCopied i =>
        (exists v, r = ROptVal (Some v) /\ eff tr = [AcRead i v]) \/ (r = ROptVal None /\ eff tr = [])
    | OIterCloned | OCloneToVec => exists n, b_cloned 0 n r tr
    | OSwap i j => swapped i j r tr
    | OFill v => exists n, b_fill v 0 n r tr
    | OFillWith f => exists n, b_fill_with f 0 n r tr
    | OIndexOf v => exists n, b_index_of E v 0 n r tr
    | OContains v => exists n, b_contains E v 0 n r tr
    | OMap f => exists n, b_map f 0 n r tr
    | OFilter f => exists n, b_filter f 0 n r tr
    | OFold init f => exists n, b_fold init f 0 n r tr
    | OReduce f => exists n, b_reduce f 0 n r tr
    | OEqList l => exists n, w_eq l 0 n r tr
    | ODebug => exists n, b_debug 0 n r tr
    | OElem i o => post_elem E i o r tr
    | OSl x o => wpost_slice x o r tr
    | ODeref i => exists v, r = RVal v /\ eff tr = [AcRead i v]
    | ODerefMut i f => exists v, r = RVal v /\ eff tr = [AcWrite i v (f v)]
    | _ => eff tr = []
    end.
  Definition wpan_slice (x : cslice) (o : sop V) (m : panic) (tr : trace) : Prop :=
    let a := sl_a x in
    let n := sl_len x in
    match o with
    | SFillWith f => writes_pan f a n m tr
    | SMap f => reads_pan (stops f) a n m tr
    | SFilter f => reads_pan (stops f) a n m tr
    | SFold init f => reads_pan (fold_stops f init) a n m tr
    | SReduce f => reads_pan (red_stops f) a n m tr
    | SIndex _ | SSlice _ | SSplitAt _ | SSplitFirst | SSplitLast | SChunks _ => eff tr = []
    | _ => False
    end.
  Definition gpan (n : nat) (it : list (option V)) (b : nat) (m : panic) (tr : trace) : Prop :=
    (m = PMaxCap /\ 0 < n /\ eff tr = [AcAdd b n]) \/
    (exists vs, length vs < n /\ eff tr = AcAdd b n :: inits b vs /\
       ((m = PShortIter /\ it = map Some vs) \/
        (m = PClosure /\ exists it', it = map Some vs ++ None :: it'))).
  Definition wpan (o : op V) (m : panic) (tr : trace) : Prop :=
    match o with
    | OPush v => exists b, m = PMaxCap /\ eff tr = [AcAdd b 1]
    | OPushFor f => exists b, eff tr = [AcAdd b 1] /\ ((m = PMaxCap /\ f b <> None) \/ (m = PClosure /\ f b = None))
    | OExtend n it | OExtendN it n => exists b, gpan n it b m tr
    | OExtendFor f n => exists b,
        (m = PMaxCap /\ 0 < n /\ eff tr = [AcAdd b n]) \/
        (m = PClosure /\ f b = None /\ eff tr = [AcAdd b n]) \/
        (m = PIterLen /\ (exists k it, f b = Some (k, it) /\ k <> n) /\ eff tr = [AcAdd b n]) \/
        (exists it, f b = Some (n, it) /\ gpan n it b m tr)
    | OFillWith f => exists n, writes_pan f 0 n m tr
    | OMap f => exists n, reads_pan (stops f) 0 n m tr
    | OFilter f => exists n, reads_pan (stops f) 0 n m tr
    | OFold init f => exists n, reads_pan (fold_stops f init) 0 n m tr
    | OReduce f => (exists n, reads_pan (red_stops f) 0 n m tr) \/ eff tr = []
    | OElem i o => pan_elem i o m tr
    | OSl x o => wpan_slice x o m tr
    | OIndex _ | OSlice _ | OAsSlice | OCloneToVec | OSplitAt _ | OSplitFirst | OSplitLast | OChunks _ => eff tr = []
    | _ => False
    end.

  (** ** Paths of a program *)
  Section Tw.
    Context (lo : nat) (P : trace -> Prop) (QP : panic -> trace -> Prop).
    Fixpoint tw {R} (Q : R -> trace -> Prop) (p : prog R) (tr : trace) : Prop :=
      match p with
      | Ret r => P tr /\ Q r tr
      | Pan m => P tr /\ QP m tr
      | Act a k => P tr /\ forall y l, logs lo a y l -> tw Q (k y) (tr ++ l)
      | Spin a again k => P tr /\ forall y l, logs lo a y l -> again y = false -> tw Q (k y) (tr ++ l)
      end.
    Lemma tw_P {R} (Q : R -> trace -> Prop) p tr : tw Q p tr -> P tr.
    Proof. destruct p; simpl; tauto. Qed.
    Lemma tw_bind {A B} (Q : B -> trace -> Prop) (p : prog A) (f : A -> prog B) : forall tr,
      tw (fun x tr' => tw Q (f x) tr') p tr -> tw Q (bind p f) tr.
    Proof.
      induction p as [r|m|a k IH|a again k IH]; simpl; intros tr H; auto; try tauto; destruct H as [H1 H2]; split; auto.
    Qed.
    Lemma tw_fmap {A B} (Q : B -> trace -> Prop) (p : prog A) (f : A -> B) tr :
      tw (fun x tr' => Q (f x) tr') p tr -> tw Q (fmap f p) tr.
    Proof.
      intros H. apply tw_bind. revert H. revert tr. induction p as [r|m|a k IH|a again k IH]; simpl; intros tr H; auto; try tauto; destruct H as [H1 H2]; split; auto.
    Qed.
    Lemma tw_weak {A} (Q Q' : A -> trace -> Prop) (p : prog A) : (forall x tr, Q x tr -> Q' x tr) -> forall tr, tw Q p tr -> tw Q' p tr.
    Proof. intros H. induction p as [r|m|a k IH|a again k IH]; simpl; intros tr [H1 H2]; auto. Qed.

    (** programs that leave no trace *)
    Definition silent (a : act V) : Prop := forall y l, logs lo a y l -> l = [].
    Fixpoint quiet {A} (R : A -> Prop) (ok : panic -> Prop) (p : prog A) : Prop :=
      match p with
      | Ret x => R x
      | Pan m => ok m
      | Act a k => silent a /\ forall y, (exists l, logs lo a y l) -> quiet R ok (k y)
      | Spin a _ k => silent a /\ forall y, (exists l, logs lo a y l) -> quiet R ok (k y)
      end.
    Lemma tw_quiet {A} R ok (Q : A -> trace -> Prop) (p : prog A) tr :
      quiet R ok p -> P tr -> (forall x, R x -> Q x tr) -> (forall m, ok m -> QP m tr) -> tw Q p tr.
    Proof.
      intros H HP HR HO. induction p as [r|m|a k IH|a again k IH]; simpl in *; auto; destruct H as [H1 H2];
        (split; [assumption|]); intros y l Hl; [|intros _]; rewrite (H1 _ _ Hl), app_nil_r; apply IH; apply H2; eauto.
    Qed.
    Lemma quiet_bind {A B} R ok (p : prog A) (f : A -> prog B) (R' : A -> Prop) : quiet R' ok p -> (forall x, R' x -> quiet R ok (f x)) -> quiet R ok (bind p f).
    Proof. intros H Hf. induction p as [r|m|a k IH|a again k IH]; simpl in *; auto; destruct H; split; auto. Qed.
    Lemma quiet_fmap {A B} (R : B -> Prop) ok (p : prog A) (f : A -> B) : quiet (fun x => R (f x)) ok p -> quiet R ok (fmap f p).
    Proof. intros H. unfold fmap. eapply quiet_bind; [exact H|]. auto. Qed.
    Lemma quiet_weak {A} (R R' : A -> Prop) (ok ok' : panic -> Prop) (p : prog A) :
      (forall x, R x -> R' x) -> (forall m, ok m -> ok' m) -> quiet R ok p -> quiet R' ok' p.
    Proof. intros HR HO. induction p as [r|m|a k IH|a again k IH]; simpl; auto; intros [H1 H2]; auto. Qed.
    Lemma quiet_mapP {A B} ok (f : A -> prog B) l : (forall x, quiet (fun _ => True) ok (f x)) -> quiet (fun _ => True) ok (mapP f l).
    Proof.
      intros H. induction l as [|x l IH]; simpl; [exact I|]. eapply quiet_bind; [apply H|]. intros y _. eapply quiet_bind; [apply IH|]. intros ys _. exact I.
    Qed.
    Lemma quiet_chk {A} (R : A -> Prop) (ok : panic -> Prop) m (x : option A) : (forall y, x = Some y -> R y) -> ok m -> quiet R ok (chk m x).
    Proof. destruct x; simpl; auto. Qed.
  End Tw.

  Local Ltac sil := intros ? ? ?Hl; simpl in *; try tauto; try (destruct Hl; assumption); try assumption.

  Section Quiet.
    Context (lo : nat).
    Notation quiet := (quiet lo).
    Notation any := (fun _ => True).
    Notation none := (fun _ : panic => False).
    Lemma q_doo a (R : res a -> Prop) ok : silent lo a -> (forall y, (exists l, logs lo a y l) -> R y) -> quiet R ok (doo a).
    Proof. intros S H. split; [assumption|]. intros y Hy. now apply H. Qed.
    Lemma q_cap ok : quiet (fun c => lo <= c) ok (core_capacity (V:=V)).
    Proof. apply q_doo; [sil|]. intros y (l & _ & H). exact H. Qed.
    Lemma q_is_some i o ok : quiet any ok (is_some_with_order (V:=V) i o).
    Proof. split; [sil|]. intros y _. exact I. Qed.
    Lemma q_count ok k : forall i, quiet any ok (count_pushed (V:=V) i k).
    Proof.
      induction k as [|k IH]; intros i; [exact I|]. cbn [count_pushed]. eapply quiet_bind; [apply q_is_some|]. intros [|] _; [|exact I].
      eapply quiet_bind; [apply IH|]. intros n _. exact I.
    Qed.
    Lemma q_range a b ok : quiet (fun l => l = seq a (b - a)) ok (core_iter_over_range (V:=V) a b).
    Proof. split; [sil|]. intros y _. reflexivity. Qed.
    Lemma q_len ok : quiet any ok (vec_len (V:=V)).
    Proof.
      unfold vec_len. split; [sil|]. intros n _. split; [sil|]. intros c _. split; [sil|]. intros r _. cbn [bind].
      eapply quiet_bind; [apply q_range|]. intros l _. eapply quiet_bind; [apply q_count|]. intros k _. split; [sil|]. intros ? _. exact I.
    Qed.
    Lemma q_reserved ok : quiet any ok (reserved_len (V:=V)).
    Proof. split; [sil|]. intros y _. split; [sil|]. intros c _. exact I. Qed.
    Lemma q_core_get i ok : quiet (fun o => o = Some i \/ o = None /\ lo <= i) ok (core_get (V:=V) i).
    Proof. eapply quiet_bind; [apply q_cap|]. intros c Hc. simpl in *. destruct (Nat.ltb_spec i c); [now left|right; split; [reflexivity|lia]]. Qed.
    Lemma q_iter ok : quiet (fun l => exists n, l = seq 0 n) ok (vec_iter (V:=V)).
    Proof. eapply quiet_bind; [apply q_len|]. intros n _. eapply quiet_weak; [| |apply (q_range 0 n none)]; simpl; [|tauto]. intros l ->. rewrite Nat.sub_0_r. eauto. Qed.
    Lemma q_slice_iter x ok : quiet (fun l => l = seq (sl_a x) (sl_len x)) ok (slice_iter (V:=V) x).
    Proof. eapply quiet_weak; [| |apply (q_range _ _ none)]; simpl; [|tauto]. intros l ->. f_equal. lia. Qed.
    Lemma q_get i ok : quiet any ok (vec_get (V:=V) i).
    Proof. eapply quiet_bind; [apply q_len|]. intros n _. destruct (i <? n); [|exact I]. eapply quiet_weak; [| |apply (q_core_get i none)]; simpl; auto; tauto. Qed.
    Lemma q_slice_get x i ok : quiet any ok (slice_get (V:=V) x i).
    Proof. unfold slice_get. destruct (_ <? _); [|exact I]. eapply quiet_weak; [| |apply (q_core_get _ none)]; simpl; auto; tauto. Qed.
    Lemma q_slice_index x i (ok : panic -> Prop) : ok POutOfBounds -> quiet any ok (slice_index (V:=V) x i).
    Proof. intros H. eapply quiet_bind; [apply q_slice_get|]. intros y _. now apply quiet_chk. Qed.
    Lemma q_index i (ok : panic -> Prop) : ok POutOfBounds -> quiet any ok (vec_index (V:=V) i).
    Proof. intros H. eapply quiet_bind; [apply q_get|]. intros y _. now apply quiet_chk. Qed.
    Lemma q_limits rg n ok : (ok POverflow : Prop) -> quiet any ok (bind (chk POverflow (range_limits E rg n)) (fun ab => bind (chk (V:=V) POverflow (usub E (snd ab) (fst ab))) (fun k => Ret (CSlice (fst ab) k)))).
    Proof. intros H. eapply quiet_bind; [apply quiet_chk; [|exact H]; intros; exact I|]. intros ab _. eapply quiet_bind; [apply quiet_chk; [|exact H]; intros; exact I|]. intros k _. exact I. Qed.
    Lemma q_slice rg (ok : panic -> Prop) : ok POverflow -> quiet any ok (vec_slice E rg).
    Proof. intros H. eapply quiet_bind; [apply q_len|]. intros n _. now apply q_limits. Qed.
    Lemma q_slice_slice x rg (ok : panic -> Prop) : ok POverflow -> quiet any ok (slice_slice E x rg).
    Proof.
      intros H. eapply quiet_bind; [apply quiet_chk; [|exact H]; intros; exact I|]. intros ab _.
      eapply quiet_bind; [apply quiet_chk; [|exact H]; intros; exact I|]. intros k _. exact I.
    Qed.
    Lemma q_as_slice (ok : panic -> Prop) : ok POverflow -> quiet (fun x => sl_a x = 0) ok (vec_as_slice E).
    Proof.
      intros H. eapply quiet_bind; [apply q_len|]. intros n _. eapply quiet_bind; [apply q_len|]. intros n' _. unfold range_limits. simpl. reflexivity.
    Qed.
    Lemma q_mut i s ok : quiet any ok (option_mut_handle (V:=V) E i s).
    Proof. unfold option_mut_handle. destruct (hspin E); (split; [sil|]); intros y _; exact I. Qed.
    Lemma q_mut_handle i s ok : quiet (fun o => o = Some i \/ o = None) ok (vec_mut_handle E i s).
    Proof.
      eapply quiet_bind; [apply q_len|]. intros n _. destruct (i <? n); [|now right]. eapply quiet_bind; [apply q_core_get|]. intros o [->|[-> _]]; [|now right].
      eapply quiet_bind; [apply q_mut|]. intros [|] _; [now left|now right].
    Qed.
    Lemma q_spin i s ok : quiet any ok (spin_handle (V:=V) i s).
    Proof. split; [sil|]. intros y _. exact I. Qed.
    Lemma q_store i s ok : quiet any ok (drop_handle (V:=V) i s).
    Proof. split; [sil|]. intros y _. exact I. Qed.
    Lemma q_drop o ok : quiet any ok (drop_opt (V:=V) o).
    Proof. destruct o; [apply q_store|exact I]. Qed.
    Lemma q_refs l ok : quiet any ok (refs_of (V:=V) l).
    Proof.
      induction l as [|e l IH]; [exact I|]. cbn [refs_of]. eapply quiet_bind; [apply q_is_some|]. intros b _. eapply quiet_bind; [apply IH|]. intros r _. exact I.
    Qed.
    Lemma q_get_ref i ok : quiet any ok (vec_get_ref (V:=V) i).
    Proof.
      eapply quiet_bind; [apply q_reserved|]. intros n _. destruct (i <? n); [|exact I]. eapply quiet_bind; [apply q_core_get|]. intros o [->|[-> _]]; [|exact I].
      eapply quiet_bind; [apply q_is_some|]. intros b _. exact I.
    Qed.
    Lemma q_grow n (ok : panic -> Prop) : ok PGrow -> quiet any ok (grow_to (V:=V) n).
    Proof. intros H. split; [sil|]. intros [|] _; [|exact H]. split; [sil|]. intros y _. exact I. Qed.
    Lemma q_single i (ok : panic -> Prop) : ok PGrow -> ok PMaxCap -> quiet any ok (single_item_as_ref (V:=V) i).
    Proof.
      intros H H'. split; [sil|]. intros m _. simpl. destruct (i <? m); [|exact H']. split; [sil|]. intros c _. destruct (write_permit i c); try exact I. now apply q_grow.
    Qed.
    Lemma q_buffer b n (ok : panic -> Prop) : b + n < wmod E -> ok PGrow -> (0 < n -> ok PMaxCap) -> quiet any ok (n_items_buffer (V:=V) E b n).
    Proof.
      intros W H H'. unfold n_items_buffer. destruct (Nat.eqb_spec n 0) as [->|N]; [exact I|]. unfold uadd. apply Nat.ltb_lt in W. rewrite W. simpl.
      unfold usub. destruct (Nat.leb_spec 1 (b + n)); [|lia]. simpl. split; [sil|]. intros m _. simpl.
      destruct (b + n - 1 <? m); [|apply H'; lia]. split; [sil|]. intros c _. destruct (write_permit_n_items _ _ c); try exact I. now apply q_grow.
    Qed.
  End Quiet.

  (** ** Accesses to the elements *)
  Section Elems.
    Context (lo : nat) (QP : panic -> trace -> Prop) (bad : forall m tr, badp m -> QP m tr).
    Notation tw1 Q p tr := (tw lo (fun _ => True) QP Q p tr).
    Lemma t_quiet {A} R ok (Q : A -> trace -> Prop) p tr : quiet lo R ok p -> (forall x, R x -> Q x tr) -> (forall m, ok m -> QP m tr) -> tw1 Q p tr.
    Proof. intros. eapply tw_quiet; eauto. Qed.
    Lemma t_then {A B} R (Q : B -> trace -> Prop) (p : prog A) (f : A -> prog B) tr :
      quiet lo R (fun _ => False) p -> (forall x, R x -> tw1 Q (f x) tr) -> tw1 Q (bind p f) tr.
    Proof. intros H H'. apply tw_bind. eapply t_quiet; [exact H|assumption|]. intros m []. Qed.
    Lemma t_ret {A} (Q : A -> trace -> Prop) x tr : Q x tr -> tw1 Q (Ret x) tr.
    Proof. intros H. split; auto. Qed.
    Lemma t_act {A} (Q : A -> trace -> Prop) a k tr : (forall y l, logs lo a y l -> tw1 Q (k y) (tr ++ l)) -> tw1 Q (Act a k) tr.
    Proof. intros H. split; auto. Qed.
    Lemma t_nil {A} (Q : A -> trace -> Prop) p tr l : l = [] -> tw1 Q p tr -> tw1 Q p (tr ++ l).
    Proof. intros -> H. now rewrite app_nil_r. Qed.

    Lemma t_omap {U} i (f : V -> option U) (Q : option U -> trace -> Prop) tr : Q None tr -> (forall v u, f v = Some u -> Q (Some u) (tr ++ [AcRead i v])) ->
      (forall v, f v = None -> QP PClosure (tr ++ [AcRead i v])) -> tw1 Q (option_map i f) tr.
    Proof.
      intros HN HS HP. eapply t_then; [apply q_spin|]. intros [|] _; [|now apply t_ret]. apply t_act. intros y l ->. rewrite app_nil_r.
      apply t_act. intros v l ->. cbn [bind]. eapply t_then; [apply q_store|]. intros _ _. destruct (f v) eqn:Hf; [apply t_ret; auto|]. split; auto.
    Qed.
    Lemma t_map {U} i (f : V -> option U) (Q : U -> trace -> Prop) tr : (forall v u, f v = Some u -> Q u (tr ++ [AcRead i v])) ->
      (forall v, f v = None -> QP PClosure (tr ++ [AcRead i v])) -> tw1 Q (elem_map i f) tr.
    Proof.
      intros HS HP. apply tw_bind. apply t_omap; [|intros v u Hf; apply t_ret; auto|assumption]. split; [exact I|]. apply bad. left. reflexivity.
    Qed.
    Lemma t_cloned i (Q : V -> trace -> Prop) tr : (forall v, Q v (tr ++ [AcRead i v])) -> tw1 Q (elem_cloned i) tr.
    Proof. intros H. apply (t_map i (fun v => Some v)); [|discriminate]. intros v u [= <-]. apply H. Qed.
    Lemma t_write {A} i f (Q : A -> trace -> Prop) (k : V -> prog A) (z : prog A) tr : tw1 Q z tr -> (forall old, tw1 Q (k old) (tr ++ [AcWrite i old (f old)])) ->
      tw1 Q (bind (spin_handle i SOME) (fun h : bool => if h then bind (doo (WrBeg i)) (fun _ => bind (doo (WrEnd i f)) (fun old => bind (drop_handle i SOME) (fun _ => k old))) else z)) tr.
    Proof.
      intros HN HS. eapply t_then; [apply q_spin|]. intros [|] _; [|assumption]. apply t_act. intros y l ->. rewrite app_nil_r.
      apply t_act. intros v l ->. cbn [bind]. eapply t_then; [apply q_store|]. intros _ _. apply HS.
    Qed.
    Lemma t_set i v (Q : unit -> trace -> Prop) tr : (forall old, Q tt (tr ++ [AcWrite i old v])) -> tw1 Q (elem_set i v) tr.
    Proof.
      intros H. apply tw_bind. apply t_write; [apply t_ret; split; [exact I|]; apply bad; unfold badp; auto|]. intros old. apply t_ret. apply t_ret. apply H.
    Qed.
    Lemma t_replace i v (Q : V -> trace -> Prop) tr : (forall old, Q old (tr ++ [AcWrite i old v])) -> tw1 Q (elem_replace i v) tr.
    Proof.
      intros H. apply tw_bind. apply t_write; [apply t_ret; split; [exact I|]; apply bad; unfold badp; auto|]. intros old. apply t_ret. apply t_ret. apply H.
    Qed.
    Lemma t_update i f (Q : unit -> trace -> Prop) tr : (forall old, snd (f old) = true -> Q tt (tr ++ [AcWrite i old (fst (f old))])) ->
      (forall old, snd (f old) = false -> QP PClosure (tr ++ [AcWrite i old (fst (f old))])) -> tw1 Q (elem_update i f) tr.
    Proof.
      intros H HP. apply tw_bind. apply t_write; [apply t_ret; split; [exact I|]; apply bad; unfold badp; auto|]. intros old.
      destruct (snd (f old)) eqn:Hf; [apply t_ret; apply t_ret; auto|split; auto].
    Qed.

    (** ** Loops *)
    Lemma t_map_elems {U} n : forall (f : nat -> V -> option U) a (Q : list U -> trace -> Prop) tr,
      (forall vs us, length vs = n -> mapn f vs = map Some us -> Q us (tr ++ reads a vs)) ->
      (forall vs, length vs <= n -> stops f vs -> QP PClosure (tr ++ reads a vs)) ->
      tw1 Q (map_elems (seq a n) f) tr.
    Proof.
      induction n as [|n IH]; intros f a Q tr H HP; cbn [seq map_elems].
      - apply t_ret. specialize (H [] [] eq_refl eq_refl). now rewrite app_nil_r in H.
      - apply tw_bind. apply t_map.
        + intros v u Hf. apply tw_bind. apply IH.
          * intros vs us Hl Hm. apply t_ret. rewrite <- app_assoc. apply (H (v :: vs) (u :: us)); simpl; congruence.
          * intros vs Hl Hs. rewrite <- app_assoc. apply (HP (v :: vs)); simpl; [lia|now rewrite Hf].
        + intros v Hf. apply (HP [v]); simpl; [lia|now rewrite Hf].
    Qed.
    Lemma t_clone_elems n : forall a (Q : list V -> trace -> Prop) tr,
      (forall vs, length vs = n -> Q vs (tr ++ reads a vs)) -> tw1 Q (mapP elem_cloned (seq a n)) tr.
    Proof.
      induction n as [|n IH]; intros a Q tr H; cbn [seq mapP].
      - apply t_ret. specialize (H [] eq_refl). now rewrite app_nil_r in H.
      - apply tw_bind. apply t_cloned. intros v. apply tw_bind. apply IH. intros vs Hl. apply t_ret. rewrite <- app_assoc. apply (H (v :: vs)). simpl. congruence.
    Qed.
    Lemma t_next_elems n : forall a (Q : list (piece V) -> trace -> Prop) tr,
      (forall vs, length vs = n -> Q (map PNext vs) (tr ++ reads a vs)) -> tw1 Q (mapP (fun e => elem_map e (fun x => Some (PNext x))) (seq a n)) tr.
    Proof.
      induction n as [|n IH]; intros a Q tr H; cbn [seq mapP].
      - apply t_ret. specialize (H [] eq_refl). now rewrite app_nil_r in H.
      - apply tw_bind. apply t_map; [|discriminate]. intros v u [= <-]. apply tw_bind. apply IH. intros vs Hl. apply t_ret. rewrite <- app_assoc.
        apply (H (v :: vs)). simpl. congruence.
    Qed.
    Lemma t_fmt_elems n a (Q : list (piece V) -> trace -> Prop) tr :
      (forall vs, length vs = n -> Q (pieces vs) (tr ++ reads a vs)) -> tw1 Q (fmt_elems (seq a n)) tr.
    Proof.
      intros H. destruct n as [|n]; cbn [seq fmt_elems].
      - apply t_ret. specialize (H [] eq_refl). now rewrite app_nil_r in H.
      - apply tw_bind. apply t_map; [|discriminate]. intros v u [= <-]. apply tw_bind. apply t_next_elems. intros vs Hl. apply t_ret. rewrite <- app_assoc.
        apply (H (v :: vs)). simpl. congruence.
    Qed.
    Lemma t_filter_elems n : forall (f : nat -> V -> option bool) a (Q : list nat -> trace -> Prop) tr,
      (forall vs bs, length vs = n -> mapn f vs = map Some bs -> Q (pick a bs) (tr ++ reads a vs)) ->
      (forall vs, length vs <= n -> stops f vs -> QP PClosure (tr ++ reads a vs)) ->
      tw1 Q (filter_elems (seq a n) f) tr.
    Proof.
      induction n as [|n IH]; intros f a Q tr H HP; cbn [seq filter_elems].
      - apply t_ret. specialize (H [] [] eq_refl eq_refl). now rewrite app_nil_r in H.
      - apply tw_bind. apply t_map.
        + intros v b Hf. apply tw_bind. apply IH.
          * intros vs bs Hl Hm. apply t_ret. rewrite <- app_assoc. apply (H (v :: vs) (b :: bs)); simpl; congruence.
          * intros vs Hl Hs. rewrite <- app_assoc. apply (HP (v :: vs)); simpl; [lia|now rewrite Hf].
        + intros v Hf. apply (HP [v]); simpl; [lia|now rewrite Hf].
    Qed.
    Lemma t_fold_elems {U} n : forall (f : nat -> U -> V -> option U) u a (Q : U -> trace -> Prop) tr,
      (forall vs u', length vs = n -> ofold f u vs = Some u' -> Q u' (tr ++ reads a vs)) ->
      (forall vs, length vs <= n -> fold_stops f u vs -> QP PClosure (tr ++ reads a vs)) ->
      tw1 Q (fold_elems (seq a n) u f) tr.
    Proof.
      induction n as [|n IH]; intros f u a Q tr H HP; cbn [seq fold_elems].
      - apply t_ret. specialize (H [] u eq_refl eq_refl). now rewrite app_nil_r in H.
      - apply tw_bind. apply t_map.
        + intros v u' Hf. apply IH.
          * intros vs u2 Hl Hm. rewrite <- app_assoc. apply (H (v :: vs)); simpl; [congruence|now rewrite Hf].
          * intros vs Hl Hs. rewrite <- app_assoc. apply (HP (v :: vs)); simpl; [lia|now rewrite Hf].
        + intros v Hf. apply (HP [v]); simpl; [lia|now rewrite Hf].
    Qed.
    Lemma t_fill_elems v n : forall a (Q : unit -> trace -> Prop) tr,
      (forall olds, length olds = n -> Q tt (tr ++ writes a (map (fun o => (o, v)) olds))) -> tw1 Q (fill_elems (seq a n) v) tr.
    Proof.
      unfold fill_elems. induction n as [|n IH]; intros a Q tr H; cbn [seq foldP].
      - apply t_ret. specialize (H [] eq_refl). now rewrite app_nil_r in H.
      - apply tw_bind. apply t_set. intros old. apply IH. intros olds Hl. rewrite <- app_assoc. apply (H (old :: olds)). simpl. congruence.
    Qed.
    Lemma t_fill_elems_with f n : forall k a (Q : unit -> trace -> Prop) tr,
      (forall ps, length ps = n -> (forall j p, nth_error ps j = Some p -> f (k + j) = Some (snd p)) -> Q tt (tr ++ writes a ps)) ->
      (forall ps, length ps < n -> f (k + length ps) = None -> (forall j p, nth_error ps j = Some p -> f (k + j) = Some (snd p)) -> QP PClosure (tr ++ writes a ps)) ->
      tw1 Q (fill_elems_with k (seq a n) f) tr.
    Proof.
      induction n as [|n IH]; intros k a Q tr H HP; cbn [seq fill_elems_with].
      - apply t_ret. specialize (H [] eq_refl). simpl in H. rewrite app_nil_r in H. apply H. intros [|j] p; discriminate.
      - destruct (f k) as [v|] eqn:Fk; cbn [chk bind].
        + apply tw_bind. apply t_set. intros old. apply IH.
          * intros ps Hl Hf. rewrite <- app_assoc. apply (H ((old, v) :: ps)); [simpl; congruence|].
            intros [|j] p; simpl; [intros [= <-]; now rewrite Nat.add_0_r|]. intros Hj. rewrite Nat.add_succ_r. now apply Hf.
          * intros ps Hl HN Hf. rewrite <- app_assoc. apply (HP ((old, v) :: ps)); [simpl; lia|simpl; now rewrite Nat.add_succ_r|].
            intros [|j] p; simpl; [intros [= <-]; now rewrite Nat.add_0_r|]. intros Hj. rewrite Nat.add_succ_r. now apply Hf.
        + split; [exact I|]. specialize (HP []). simpl in HP. rewrite Nat.add_0_r, app_nil_r in HP. apply HP; [lia|assumption|]. intros [|j] p; discriminate.
    Qed.
    Lemma t_position v n : forall k a (Q : option nat -> trace -> Prop) tr,
      (forall vs o, match o with
                    | Some q => exists j, q = k + j /\ j < n /\ length vs = S j /\ forall j' x, nth_error vs j' = Some x -> eqv E x v = (j' =? j)
                    | None => length vs = n /\ forall x, In x vs -> eqv E x v = false
                    end -> Q o (tr ++ reads a vs)) ->
      tw1 Q (position E k (seq a n) v) tr.
    Proof.
      induction n as [|n IH]; intros k a Q tr H; cbn [seq position].
      - apply t_ret. specialize (H [] None). simpl in H. rewrite app_nil_r in H. apply H. tauto.
      - apply tw_bind. apply t_map; [|discriminate]. intros x b [= <-]. destruct (eqv E x v) eqn:Q1.
        + apply t_ret. apply (H [x] (Some k)). exists 0. rewrite Nat.add_0_r. split; [reflexivity|]. split; [lia|]. split; [reflexivity|].
          intros [|[|j']] y; simpl; try discriminate. now intros [= <-].
        + apply IH. intros vs o Ho. rewrite <- app_assoc. apply (H (x :: vs) o). destruct o as [q|].
          * destruct Ho as (j & -> & Hj & Hl & Hx). exists (S j). split; [lia|]. split; [lia|]. split; [simpl; congruence|].
            intros [|j'] y; simpl; [now intros [= <-]|]. intros Hy. rewrite (Hx _ _ Hy). destruct (Nat.eqb_spec j' j), (Nat.eqb_spec (S j') (S j)); auto; lia.
          * destruct Ho as [Hl Hx]. split; [simpl; congruence|]. intros y [<-|Hy]; auto.
    Qed.
    Lemma t_eq_elems n : forall l a (Q : bool -> trace -> Prop) tr,
      (forall vs b, length vs <= n -> length vs <= length l ->
         (if b : bool then n = length l /\ length vs = n /\ Forall2 (fun x y => eqv E x y = true) vs l
          else (exists vs' x y, vs = vs' ++ [x] /\ nth_error l (length vs') = Some y /\ eqv E x y = false /\
                            Forall2 (fun x y => eqv E x y = true) vs' (firstn (length vs') l))
               \/ Forall2 (fun x y => eqv E x y = true) vs (firstn (length vs) l)) -> Q b (tr ++ reads a vs)) ->
      tw1 Q (eq_elems_list E (seq a n) l) tr.
    Proof.
      induction n as [|n IH]; intros l a Q tr H; cbn [seq eq_elems_list].
      - destruct l as [|y l]; cbn [eq_elems_list]; apply t_ret.
        + specialize (H [] true). simpl in H. rewrite app_nil_r in H. apply H; auto.
        + specialize (H [] false). simpl in H. rewrite app_nil_r in H. apply H; [lia|lia|]. right. constructor.
      - destruct l as [|y l]; cbn [eq_elems_list].
        + apply t_ret. specialize (H [] false). simpl in H. rewrite app_nil_r in H. apply H; [lia|lia|]. right. constructor.
        + apply tw_bind. apply t_omap; [|intros x u [= <-]|discriminate].
          * apply t_ret. specialize (H [] false). simpl in H. rewrite app_nil_r in H. apply H; [lia|lia|]. right. constructor.
          * destruct (eqv E x y) eqn:Q1.
            -- apply IH. intros vs b Hn Hl Hb. rewrite <- app_assoc. apply (H (x :: vs) b); [simpl; lia|simpl; lia|]. destruct b.
               ++ destruct Hb as (-> & Hv & F). split; [reflexivity|]. split; [simpl; congruence|]. now constructor.
               ++ destruct Hb as [(vs' & x' & y' & -> & Hy & Q2 & F)|F].
                  ** left. exists (x :: vs'), x', y'. split; [reflexivity|]. split; [assumption|]. split; [assumption|]. simpl. now constructor.
                  ** right. simpl. now constructor.
            -- apply t_ret. apply (H [x] false); [simpl; lia|simpl; lia|]. left. exists [], x, y. split; [reflexivity|]. split; [reflexivity|]. split; [assumption|]. constructor.
    Qed.
    Lemma t_swap i j (Q : bool -> trace -> Prop) tr : (forall v w, i <> j -> Q true (tr ++ [AcSwap i j v w])) -> Q false tr -> tw1 Q (vec_swap E i j) tr.
    Proof.
      intros HS HN. assert (K : forall a b, tw1 Q (bind (drop_opt b) (fun _ => bind (drop_opt a) (fun _ => Ret false))) tr).
      { intros a b. eapply t_then; [apply q_drop|]. intros _ _. eapply t_then; [apply q_drop|]. intros _ _. now apply t_ret. }
      eapply t_then; [apply q_mut_handle|]. intros hi Hi. eapply t_then; [apply q_mut_handle|]. intros hj Hj.
      destruct Hi as [->| ->]; [|apply K]. destruct Hj as [->| ->]; [|apply (K (Some i))].
      apply t_act. intros y l ->. rewrite app_nil_r. apply t_act. intros y' l ->. rewrite app_nil_r. apply t_act. intros y2 l (Nij & v & w & ->). cbn [bind].
      eapply t_then; [apply q_store|]. intros _ _. eapply t_then; [apply q_store|]. intros _ _. apply t_ret. now apply HS.
    Qed.
  End Elems.

  (** ** Growth *)
  Lemma inits_snoc a (vs : list V) v : inits a (vs ++ [v]) = inits a vs ++ [AcInit (a + length vs) v].
  Proof.
    revert a. induction vs as [|w vs IH]; intros a; simpl; [now rewrite Nat.add_0_r|]. rewrite IH. now rewrite Nat.add_succ_r.
  Qed.
  Section Grow.
    Context (lo : nat) (o : op V) (QP : panic -> trace -> Prop) (b : nat) (Hb : b + request o < wmod E).
    Notation gw Q p tr := (tw lo (gtrace o) QP Q p tr).
    Notation tr_of vs := (AcAdd b (request o) :: inits b vs).
    Lemma gtrace_of vs : length vs <= request o -> gives o b vs -> gtrace o (tr_of vs).
    Proof. intros H H'. right. exists b, vs. auto. Qed.
    Lemma g_init vs v (Q : unit -> trace -> Prop) : length vs < request o -> gives o b vs -> stores o b (length vs) v ->
      (gives o b (vs ++ [v]) -> Q tt (tr_of (vs ++ [v]))) -> gw Q (initialize_unchecked (b + length vs) v) (tr_of vs).
    Proof.
      intros Hl G S H. assert (G' : gives o b (vs ++ [v])).
      { intros j w. destruct (Nat.lt_ge_cases j (length vs)) as [Hj|Hj]; [rewrite nth_error_app1 by assumption; apply G|].
        rewrite nth_error_app2 by assumption. destruct (j - length vs) as [|k] eqn:Q1; simpl; [|destruct k; discriminate]. intros [= <-].
        replace j with (length vs) by lia. assumption. }
      assert (T : tr_of vs ++ [AcInit (b + length vs) v] = tr_of (vs ++ [v])) by (rewrite inits_snoc; reflexivity).
      assert (P1 : gtrace o (tr_of vs)) by (apply gtrace_of; [lia|assumption]).
      assert (P2 : gtrace o (tr_of (vs ++ [v]))) by (apply gtrace_of; [rewrite app_length; simpl; lia|assumption]).
      split; [assumption|]. intros y l ->. rewrite app_nil_r. split; [assumption|]. intros y1 l ->. rewrite T. split; [assumption|]. intros y2 l ->. rewrite app_nil_r.
      split; [assumption|]. destruct y2. auto.
    Qed.
    Lemma g_items n : forall it vs (Q : unit -> trace -> Prop), length vs + n = request o -> gives o b vs ->
      (forall j v, j < n -> nth_error it j = Some (Some v) -> stores o b (length vs + j) v) ->
      (forall us, length us = n -> firstn n it = map Some us -> Q tt (tr_of (vs ++ us))) ->
      (forall us, length us < n -> it = map Some us -> QP PShortIter (tr_of (vs ++ us))) ->
      (forall us it', length us < n -> it = map Some us ++ None :: it' -> QP PClosure (tr_of (vs ++ us))) ->
      gw Q (write_items (b + length vs) n it) (tr_of vs).
    Proof.
      induction n as [|n IH]; intros it vs Q Hl G S H HS HC; cbn [write_items].
      - split; [apply gtrace_of; [lia|assumption]|]. specialize (H [] eq_refl eq_refl). now rewrite app_nil_r in H.
      - destruct it as [|[v|] it].
        + split; [apply gtrace_of; [lia|assumption]|]. specialize (HS [] ltac:(simpl; lia) eq_refl). now rewrite app_nil_r in HS.
        + apply tw_bind. apply g_init; [lia|assumption|rewrite <- (Nat.add_0_r (length vs)); apply S; [lia|reflexivity]|]. intros G'.
          replace (Datatypes.S (b + length vs)) with (b + length (vs ++ [v])) by (rewrite app_length; simpl; lia).
          apply IH; [rewrite app_length; simpl; lia|assumption| | | |].
          * intros j w Hj Hw. rewrite app_length. simpl. rewrite <- Nat.add_assoc. apply (S (1 + j)); [lia|exact Hw].
          * intros us Hu Hf. rewrite <- app_assoc. apply (H (v :: us)); simpl; congruence.
          * intros us Hu Hf. rewrite <- app_assoc. apply (HS (v :: us)); simpl; [lia|congruence].
          * intros us it' Hu Hf. rewrite <- app_assoc. apply (HC (v :: us) it'); simpl; [lia|congruence].
        + split; [apply gtrace_of; [lia|assumption]|]. specialize (HC [] it ltac:(simpl; lia) eq_refl). now rewrite app_nil_r in HC.
    Qed.
    Lemma gives_nil : gives o b [].
    Proof. intros [|j] v; discriminate. Qed.
    Lemma g_quiet {A} R ok (Q : A -> trace -> Prop) p vs : length vs <= request o -> gives o b vs ->
      quiet lo R ok p -> (forall x, R x -> Q x (tr_of vs)) -> (forall m, ok m -> QP m (tr_of vs)) -> gw Q p (tr_of vs).
    Proof. intros Hl G H HR HO. eapply tw_quiet; eauto. now apply gtrace_of. Qed.
  End Grow.

  Lemma firstn_nth {A} (l : list A) n j x : j < n -> nth_error l j = Some x -> nth_error (firstn n l) j = Some x.
  Proof. revert n j. induction l as [|y l IH]; intros [|n] [|j] H; simpl; try lia; try discriminate; auto. intros. apply IH; [lia|assumption]. Qed.

  Definition floor (o : op V) : nat := match o with OSl x _ => sl_a x + sl_len x | _ => 0 end.
  Definition ended_pan (o : op V) (m : panic) (tr : trace) : Prop := badp m \/ wpan o m tr.

  Lemma eff_add b n (vs : list V) : eff (AcAdd b n :: inits b vs) = AcAdd b n :: inits b vs.
  Proof. unfold eff. simpl. f_equal. apply eff_inits. Qed.
  Lemma g_extend o n it (f : unit -> prog (ret V)) b : request o = n -> b + n < wmod E ->
    (forall j v, nth_error it j = Some (Some v) -> j < n -> stores o b j v) ->
    (forall vs tr, firstn n it = map Some vs -> grow_post n vs b (RNat b) tr -> wpost o (RNat b) tr) ->
    (forall m tr, gpan n it b m tr -> wpan o m tr) ->
    f tt = Ret (RNat b) ->
    tw (floor o) (gtrace o) (ended_pan o) (wpost o) (bind (write_items b n it) f) [AcAdd b n].
  Proof.
    intros <- W HS HQ HPan Hf. apply tw_bind. pose proof (g_items (floor o) o (ended_pan o) b W (request o) it []) as X. simpl in X. rewrite Nat.add_0_r in X. apply X; clear X.
    - reflexivity.
    - apply gives_nil.
    - intros j v Hj Hv. now apply HS.
    - intros us Hu Hfi. rewrite Hf. assert (Hg : gives o b us).
      { intros j v Hv. assert (Hj : j < request o) by (rewrite <- Hu; apply nth_error_Some; congruence). apply HS; [|assumption].
        assert (Y : nth_error (firstn (request o) it) j = Some (Some v)) by (rewrite Hfi; apply map_nth_error; assumption).
        clear -Y. revert Y. generalize (request o). intros k. revert k j. induction it as [|x it IH]; intros [|k] [|j]; simpl; try discriminate; eauto. }
      split; [apply gtrace_of; [assumption|lia|assumption]|]. eapply HQ; [eassumption|]. split; [reflexivity|]. split; [assumption|]. apply eff_add.
    - intros us Hu Hi. right. apply HPan. right. exists us. split; [assumption|]. split; [apply eff_add|]. left. auto.
    - intros us it' Hu Hi. right. apply HPan. right. exists us. split; [assumption|]. split; [apply eff_add|]. right. eauto.
  Qed.
  Lemma tw_add o k : (forall b, b + request o < wmod E -> tw (floor o) (gtrace o) (ended_pan o) (wpost o) (k b) [AcAdd b (request o)]) ->
    tw (floor o) (gtrace o) (ended_pan o) (wpost o) (Act (AddResv (request o) Relaxed) k) [].
  Proof. intros H. split; [now left|]. intros y l [-> W]. now apply H. Qed.

  Lemma bind_assoc {A B C} (p : prog A) (f : A -> prog B) (g : B -> prog C) : forall Q lo P QP tr,
    tw lo P QP Q (bind p (fun x => bind (f x) g)) tr -> tw lo P QP Q (bind (bind p f) g) tr.
  Proof.
    intros Q lo P QP. induction p as [r|m|a k IH|a again k IH]; simpl; intros tr H; auto; destruct H as [H1 H2]; split; auto.
  Qed.

  Lemma grow_paths : forall o, grows o = true -> tw (floor o) (gtrace o) (ended_pan o) (wpost o) (op_prog E o) [].
  Proof.
    assert (SI : forall o b v, b + 1 < wmod E -> request o = 1 -> stores o b 0 v ->
      (forall tr, grow_post 1 [v] b (RNat b) tr -> wpost o (RNat b) tr) -> (forall tr, eff tr = [AcAdd b 1] -> wpan o PMaxCap tr) ->
      tw (floor o) (gtrace o) (ended_pan o) (wpost o)
        (bind (single_item_as_ref b) (fun _ => bind (initialize_unchecked b v) (fun _ => Ret (RNat b)))) [AcAdd b 1]).
    { intros o b v W R S HQ HP. apply tw_bind. rewrite <- R in *. apply (g_quiet (floor o) o (ended_pan o) b W (fun _ => True) (fun m => m = PGrow \/ m = PMaxCap) _ _ []).
      - simpl. lia.
      - apply gives_nil.
      - apply q_single; auto.
      - intros [] _. apply tw_bind. pose proof (g_init (floor o) o (ended_pan o) b W [] v) as X. simpl in X. rewrite Nat.add_0_r in X. apply X; clear X; [lia|apply gives_nil|assumption|].
        intros G. split; [apply (gtrace_of o b W [v]); [simpl; lia|assumption]|]. apply HQ. rewrite R. split; [reflexivity|]. split; [reflexivity|]. reflexivity.
      - intros m [->| ->]; [left; unfold badp; auto|right; apply HP; rewrite R; reflexivity]. }
    assert (EX : forall o n it, request o = n -> (forall b j v, nth_error it j = Some (Some v) -> j < n -> stores o b j v) ->
      (forall b vs tr, firstn n it = map Some vs -> grow_post n vs b (RNat b) tr -> wpost o (RNat b) tr) ->
      (forall b m tr, gpan n it b m tr -> wpan o m tr) ->
      tw (floor o) (gtrace o) (ended_pan o) (wpost o) (fmap RNat (extend_n_items E it n)) []).
    { intros o n it R S HQ HP. unfold extend_n_items. apply bind_assoc. cbn [bind doo]. rewrite <- R. apply tw_add. intros b W. rewrite R in *.
      apply bind_assoc. apply tw_bind. pose proof (g_quiet (floor o) o (ended_pan o) b ltac:(rewrite R; exact W) (fun _ : unit => True) (fun m => m = PGrow \/ (m = PMaxCap /\ 0 < n))) as GQ.
      specialize (GQ (fun x tr' => tw (floor o) (gtrace o) (ended_pan o) (wpost o) (bind (bind (write_items b n it) (fun _ => Ret b)) (fun x0 => Ret (RNat x0))) tr') (n_items_buffer E b n) []).
      simpl in GQ. rewrite R in GQ. apply GQ; clear GQ.
      - lia.
      - apply gives_nil.
      - apply q_buffer; auto.
      - intros _ _. apply bind_assoc. apply g_extend with (n := n) (it := it); [assumption|assumption|intros j v; apply S|intros vs tr; apply HQ|intros m tr; apply HP|reflexivity].
      - intros m [->|[-> Hn]]; [left; unfold badp; auto|right; apply (HP b); left; auto]. }
    intros o. destruct o; try discriminate; intros _; cbn [op_prog].
    - unfold push. apply bind_assoc. cbn [bind doo]. apply (tw_add (OPush v)). intros b W. apply bind_assoc.
      pose proof (SI (OPush v) b v W eq_refl eq_refl) as X. cbn [fmap]. refine (tw_weak _ _ _ _ _ _ (fun _ _ H => H) _ (X _ _)).
      + intros tr H. exists b. exact H.
      + intros tr H. exists b. auto.
    - unfold push_for_idx. apply bind_assoc. cbn [bind doo]. apply (tw_add (OPushFor f)). intros b W.
      destruct (f b) as [v|] eqn:Hf; cbn [chk bind].
      + pose proof (SI (OPushFor f) b v W eq_refl Hf) as X. apply bind_assoc. refine (tw_weak _ _ _ _ _ _ (fun _ _ H => H) _ (X _ _)).
        * intros tr H. exists b, v. auto.
        * intros tr H. exists b. split; [assumption|]. left. split; [reflexivity|congruence].
      + split; [apply (gtrace_of (OPushFor f) b W []); [simpl; lia|apply gives_nil]|]. right. exists b. auto.
    - apply (EX (OExtend claimed it) claimed it eq_refl).
      + intros b j v Hv _. exact Hv.
      + intros b vs tr Hf H. exists b, vs. auto.
      + intros b m tr H. exists b. auto.
    - unfold extend_for_idx. apply bind_assoc. cbn [bind doo]. apply (tw_add (OExtendFor f n)). intros b W. cbn [request] in *.
      apply bind_assoc. apply tw_bind.
      pose proof (g_quiet (floor (OExtendFor f n)) (OExtendFor f n) (ended_pan (OExtendFor f n)) b W (fun _ : unit => True) (fun m => m = PGrow \/ (m = PMaxCap /\ 0 < n))) as GQ.
      match goal with |- tw _ _ _ ?q ?p _ => specialize (GQ q p []) end. apply GQ; clear GQ.
      + simpl. lia.
      + apply gives_nil.
      + apply q_buffer; auto.
      + intros _ _. destruct (f b) as [[k it]|] eqn:Hf; cbn [chk bind fst snd].
        * destruct (Nat.eqb_spec k n) as [->|N]; cbn [bind].
          -- apply bind_assoc. apply g_extend with (n := n) (it := it); auto.
             ++ intros j v Hv _. simpl. eauto.
             ++ intros vs tr Hfi H. simpl. eauto 8.
             ++ intros m tr H. exists b. right. right. right. eauto.
          -- split; [apply (gtrace_of (OExtendFor f n) b W []); [simpl; lia|apply gives_nil]|]. right. exists b. right. right. left. eauto 8.
        * split; [apply (gtrace_of (OExtendFor f n) b W []); [simpl; lia|apply gives_nil]|]. right. exists b. right. left. auto.
      + intros m [->|[-> Hn]]; [left; unfold badp; auto|right; exists b; left; auto].
    - apply (EX (OExtendN it n) n it eq_refl).
      + intros b j v Hv _. exact Hv.
      + intros b vs tr Hf H. exists b, vs. auto.
      + intros b m tr H. exists b. auto.
  Qed.

  (** ** The other methods *)
  Lemma tw_P_weak lo (P : trace -> Prop) QP {R} (Q : R -> trace -> Prop) p : (forall tr, P tr) -> forall tr, tw lo (fun _ => True) QP Q p tr -> tw lo P QP Q p tr.
  Proof. intros H. induction p as [r|m|a k IH|a again k IH]; simpl; intros tr [_ H2]; auto. Qed.
  Lemma ended_bad o m tr : badp m -> ended_pan o m tr.
  Proof. now left. Qed.
  Notation tw1 o Q p tr := (tw (floor o) (fun _ => True) (ended_pan o) Q p tr).
  Local Hint Resolve ended_bad : core.
  Local Hint Extern 1 (eff _ = reads _ _) => apply eff_reads : core.
  Local Hint Extern 1 (eff _ = writes _ _) => apply eff_writes : core.

  Lemma slice_paths x o : tw1 (OSl x o) (wpost (OSl x o)) (sop_prog E x o) [].
  Proof.
    assert (QU : forall A (g : A -> ret V) p ok, quiet (floor (OSl x o)) (fun _ => True) ok p -> (forall r, wpost (OSl x o) r [] <-> True) ->
      (forall m, ok m -> ended_pan (OSl x o) m []) -> tw1 (OSl x o) (wpost (OSl x o)) (fmap g p) []).
    { intros A g p ok H HQ HP. apply tw_fmap. eapply t_quiet; [exact H| |exact HP]. intros y _. now apply HQ. }
    destruct o; cbn [sop_prog].
    - apply (QU _ _ _ (fun _ => False)); [|simpl; tauto|tauto]. apply q_slice_get.
    - apply (QU _ _ _ (fun _ => True)); [|simpl; tauto|right; reflexivity]. now apply q_slice_index.
    - apply tw_fmap. unfold slice_get_cloned. destruct (Nat.ltb_spec i (sl_len x)) as [Hi|Hi].
      + eapply t_then; [apply q_core_get|]. cbv beta. intros y [->|[-> Hy]]; [|simpl in Hy; lia]. apply tw_bind. apply t_cloned; [auto|]. intros v. apply t_ret. simpl. left. split; [assumption|]. eauto.
      + apply t_ret. simpl. auto.
    - apply (QU _ _ _ (fun _ => True)); [now apply q_slice_slice|simpl; tauto|right; reflexivity].
    - apply (QU _ _ _ (fun _ => False)); [eapply quiet_weak; [| |apply (q_slice_iter _ x (fun _ => False))]; auto|simpl; tauto|tauto].
    - apply tw_fmap. eapply t_then; [apply q_slice_iter|]. intros l ->. apply t_clone_elems; auto. intros vs Hl. simpl. exists vs. auto.
    - apply tw_fmap. unfold slice_swap, slice_idx. destruct (Nat.ltb_spec i (sl_len x)) as [Hi|Hi], (Nat.ltb_spec j (sl_len x)) as [Hj|Hj].
      2,3,4: apply t_ret; right; auto.
      apply t_swap.
      + intros v w N. left. split; [assumption|]. split; [assumption|]. left. exists v, w. auto.
      + left. split; [assumption|]. split; [assumption|]. right. auto.
    - apply tw_fmap. eapply t_then; [apply q_slice_iter|]. intros l ->. apply t_fill_elems; auto. intros olds Hl. simpl. exists olds. auto.
    - apply tw_fmap. eapply t_then; [apply q_slice_iter|]. intros l ->. apply t_fill_elems_with; auto.
      + intros ps Hl Hf. simpl. exists ps. auto.
      + intros ps Hl HN Hf. right. split; [reflexivity|]. exists ps. exact (conj Hl (conj HN (conj (eff_writes _ _) Hf))).
    - apply tw_fmap. eapply t_then; [apply q_slice_iter|]. intros l ->. apply t_position; auto. intros vs q Hq. exists q. split; [reflexivity|]. exists vs.
      split; [apply eff_reads|]. destruct q as [q|]; [|assumption]. destruct Hq as (j & -> & Hj). exact Hj.
    - apply tw_fmap. unfold slice_contains, slice_index_of. apply bind_assoc. eapply t_then; [apply q_slice_iter|]. intros l ->. apply tw_bind. apply t_position; auto. intros vs q Hq. apply t_ret. exists q. split; [reflexivity|]. exists vs.
      split; [apply eff_reads|]. destruct q as [q|]; [|assumption]. destruct Hq as (j & -> & Hj). exact Hj.
    - apply tw_fmap. eapply t_then; [apply q_slice_iter|]. intros l ->. apply t_clone_elems; auto. intros vs Hl. simpl. exists vs. auto.
    - apply tw_fmap. eapply t_then; [apply q_slice_iter|]. intros l ->. apply t_map_elems; auto.
      + intros vs us Hl Hf. simpl. exists vs, us. auto.
      + intros vs Hl Hs. right. split; [reflexivity|]. exists vs. auto.
    - apply tw_fmap. eapply t_then; [apply q_slice_iter|]. intros l ->. apply t_filter_elems; auto.
      + intros vs us Hl Hf. simpl. exists vs, us. auto.
      + intros vs Hl Hs. right. split; [reflexivity|]. exists vs. auto.
    - apply tw_fmap. eapply t_then; [apply q_slice_iter|]. intros l ->. apply t_fold_elems; auto.
      + intros vs us Hl Hf. simpl. exists vs, us. auto.
      + intros vs Hl Hs. right. split; [reflexivity|]. exists vs. auto.
    - apply tw_fmap. eapply t_then; [apply q_slice_iter|]. intros l ->. destruct (sl_len x) as [|n] eqn:Hn; cbn [seq].
      + apply t_ret. simpl. rewrite Hn. exists [], None. auto.
      + apply tw_bind. apply t_cloned; auto. intros v. apply tw_bind. apply t_fold_elems; auto.
        * intros vs u Hl Hf. apply t_ret. simpl. rewrite Hn. exists (v :: vs), (Some u). split; [simpl; congruence|]. split; [reflexivity|]. split; [apply (eff_reads _ (v :: vs))|]. eauto.
        * intros vs Hl Hs. right. split; [reflexivity|]. exists (v :: vs). rewrite Hn. split; [simpl; lia|]. split; [apply (eff_reads _ (v :: vs))|]. exact Hs.
    - apply (QU _ _ _ (fun _ => True)); [|simpl; tauto|right; reflexivity]. unfold slice_split_at. destruct (_ <=? _); [|exact I].
      eapply quiet_bind; [now apply q_slice_slice|]. intros. eapply quiet_bind; [now apply q_slice_slice|]. intros. exact I.
    - apply (QU _ _ _ (fun _ => True)); [|simpl; tauto|right; reflexivity]. unfold slice_split_first. eapply quiet_bind; [apply q_slice_get|].
      intros [a|] _; [|exact I]. eapply quiet_bind; [now apply q_slice_slice|]. intros. exact I.
    - apply (QU _ _ _ (fun _ => True)); [|simpl; tauto|right; reflexivity]. unfold slice_split_last. destruct (sl_len x); [exact I|].
      eapply quiet_bind; [now apply q_slice_slice|]. intros y _. eapply quiet_bind; [now apply q_slice_index|]. intros; exact I.
    - apply (QU _ _ _ (fun _ => True)); [|simpl; tauto|right; reflexivity]. unfold slice_chunks. destruct (_ <? _); [|exact I].
      apply quiet_mapP. intros y. now apply q_slice_slice.
    - apply tw_fmap. eapply t_then; [apply q_slice_iter|]. intros l' ->. apply t_eq_elems; auto. intros vs b Hn Hl Hb. exists vs, b. split; [reflexivity|]. split; [apply eff_reads|]. auto.
    - apply tw_fmap. eapply t_then; [apply q_slice_iter|]. intros l ->. apply t_fmt_elems; auto. intros vs Hl. exists vs. auto.
    - apply (QU _ _ _ (fun _ => False)); [|simpl; tauto|tauto]. unfold slice_get_ref, slice_idx. destruct (_ <? _); [|exact I]. apply q_get_ref.
    - apply (QU _ _ _ (fun _ => False)); [|simpl; tauto|tauto]. eapply quiet_bind; [apply q_slice_iter|]. intros l _. apply q_refs.
  Qed.

  Lemma elem_paths i o : tw1 (OElem i o) (wpost (OElem i o)) (eop_prog E i o) [].
  Proof.
    destruct o; cbn [eop_prog]; apply tw_fmap.
    - apply t_cloned; auto. intros v. simpl. exists v. auto.
    - apply t_cloned; auto. intros v. simpl. exists v. auto.
    - apply t_map; auto; [intros v u Hf; simpl; exists v, u; auto|intros v Hf; right; simpl; eauto].
    - apply t_replace; auto. intros old. simpl. exists old. auto.
    - apply t_set; auto. intros old. simpl. exists old. auto.
    - apply t_update; auto; [intros old Hf; simpl; exists old; auto|intros old Hf; right; simpl; eauto].
    - apply t_map; auto; [|discriminate]. intros x b [= <-]. simpl. exists x. auto.
  Qed.

  Lemma other_paths o : grows o = false -> tw1 o (wpost o) (op_prog E o) [].
  Proof.
    intros Gr.
    assert (QU : forall A (g : A -> ret V) p ok, quiet (floor o) (fun _ => True) ok p -> (forall r, wpost o r [] <-> True) ->
      (forall m, ok m -> ended_pan o m []) -> tw1 o (wpost o) (fmap g p) []).
    { intros A g p ok H HQ HP. apply tw_fmap. eapply t_quiet; [exact H| |exact HP]. intros y _. now apply HQ. }
    destruct o; try discriminate; cbn [op_prog]; clear Gr.
    - apply (QU _ _ _ (fun _ => False)); [apply q_len|simpl; tauto|tauto].
    - apply (QU _ _ _ (fun _ => False)); [|simpl; tauto|tauto]. eapply quiet_bind; [apply q_len|]. intros; exact I.
    - apply (QU _ _ _ (fun _ => False)); [|simpl; tauto|tauto]. eapply quiet_weak; [| |apply (q_cap _ (fun _ => False))]; simpl; auto.
    - apply (QU _ _ _ (fun _ => False)); [|simpl; tauto|tauto]. split; [sil|]. intros; exact I.
    - apply (QU _ _ _ (fun _ => False)); [apply q_get|simpl; tauto|tauto].
    - apply (QU _ _ _ (fun _ => True)); [|simpl; tauto|right; reflexivity]. eapply quiet_bind; [apply q_get|]. intros y _. now apply quiet_chk.
    - apply tw_fmap. eapply t_then; [apply q_reserved|]. intros n _. destruct (i <? n); [|apply t_ret; simpl; auto].
      eapply t_then; [apply q_core_get|]. intros y [->|[-> _]]; [|apply t_ret; simpl; auto]. apply t_omap; [simpl; auto|intros v u [= <-]; simpl; left; eauto|discriminate].
    - apply tw_fmap. eapply t_then; [apply q_reserved|]. intros n _. destruct (i <? n); [|apply t_ret; simpl; auto].
      eapply t_then; [apply q_core_get|]. intros y [->|[-> _]]; [|apply t_ret; simpl; auto]. apply t_omap; [simpl; auto|intros v u [= <-]; simpl; left; eauto|discriminate].
    - apply (QU _ _ _ (fun _ => True)); [now apply q_slice|simpl; tauto|right; reflexivity].
    - apply (QU _ _ _ (fun _ => True)); [|simpl; tauto|right; reflexivity]. eapply quiet_weak; [| |apply (q_as_slice _ (fun _ => True)); exact I]; auto.
    - apply (QU _ _ _ (fun _ => False)); [|simpl; tauto|tauto]. eapply quiet_weak; [| |apply (q_iter _ (fun _ => False))]; auto.
    - apply tw_fmap. unfold vec_iter_cloned. eapply t_then; [apply q_len|]. intros n _. eapply t_then; [apply q_range|]. intros l ->. rewrite Nat.sub_0_r. apply t_clone_elems; auto. intros vs Hl. exists n, vs. auto.
    - apply tw_fmap. apply t_swap.
      + intros v w N. left. exists v, w. auto.
      + right. auto.
    - apply tw_fmap. eapply t_then; [apply q_iter|]. intros l (n & ->). apply t_fill_elems; auto. intros olds Hl. exists n, olds. auto.
    - apply tw_fmap. eapply t_then; [apply q_iter|]. intros l (n & ->). apply t_fill_elems_with; auto.
      + intros ps Hl Hf. exists n, ps. auto.
      + intros ps Hl HN Hf. right. exists n. split; [reflexivity|]. exists ps. exact (conj Hl (conj HN (conj (eff_writes _ _) Hf))).
    - apply tw_fmap. eapply t_then; [apply q_iter|]. intros l (n & ->). apply t_position; auto. intros vs q Hq. exists n, q. split; [reflexivity|]. exists vs.
      split; [apply eff_reads|]. destruct q as [q|]; [|assumption]. destruct Hq as (j & -> & Hj). exact Hj.
    - apply tw_fmap. unfold vec_contains, vec_index_of. apply bind_assoc. eapply t_then; [apply q_iter|]. intros l (n & ->). apply tw_bind. apply t_position; auto. intros vs q Hq. apply t_ret. exists n, q. split; [reflexivity|]. exists vs.
      split; [apply eff_reads|]. destruct q as [q|]; [|assumption]. destruct Hq as (j & -> & Hj). exact Hj.
    - apply tw_fmap. unfold vec_clone_to_vec. apply tw_bind. eapply t_quiet; [apply (q_as_slice _ (fun _ => True)); exact I| |right; reflexivity].
      intros x Hx. eapply t_then; [apply q_slice_iter|]. intros l ->. rewrite Hx. apply t_clone_elems; auto. intros vs Hl. exists (sl_len x), vs. auto.
    - apply tw_fmap. eapply t_then; [apply q_iter|]. intros l (n & ->). apply t_map_elems; auto.
      + intros vs us Hl Hf. exists n, vs, us. auto.
      + intros vs Hl Hs. right. exists n. split; [reflexivity|]. exists vs. auto.
    - apply tw_fmap. eapply t_then; [apply q_iter|]. intros l (n & ->). apply t_filter_elems; auto.
      + intros vs us Hl Hf. exists n, vs, us. auto.
      + intros vs Hl Hs. right. exists n. split; [reflexivity|]. exists vs. auto.
    - apply tw_fmap. eapply t_then; [apply q_iter|]. intros l (n & ->). apply t_fold_elems; auto.
      + intros vs us Hl Hf. exists n, vs, us. auto.
      + intros vs Hl Hs. right. exists n. split; [reflexivity|]. exists vs. auto.
    - apply tw_fmap. unfold vec_reduce. apply tw_bind. eapply t_quiet; [apply (q_as_slice _ (fun _ => True)); exact I| |right; right; reflexivity].
      intros x Hx. eapply t_then; [apply q_slice_iter|]. intros l ->. rewrite Hx. destruct (sl_len x) as [|n] eqn:Hn; cbn [seq].
      + apply t_ret. exists 0, [], None. auto.
      + apply tw_bind. apply t_cloned; auto. intros v. apply tw_bind. apply t_fold_elems; auto.
        * intros vs u Hl Hf. apply t_ret. exists (S n), (v :: vs), (Some u). split; [simpl; congruence|]. split; [reflexivity|]. split; [apply (eff_reads _ (v :: vs))|]. eauto.
        * intros vs Hl Hs. right. left. exists (S n). split; [reflexivity|]. exists (v :: vs). split; [simpl; lia|]. split; [apply (eff_reads _ (v :: vs))|]. exact Hs.
    - apply (QU _ _ _ (fun _ => True)); [|simpl; tauto|right; reflexivity]. eapply quiet_bind; [apply q_len|]. intros n _. destruct (_ <=? _); [|exact I].
      eapply quiet_bind; [now apply q_slice|]. intros. eapply quiet_bind; [now apply q_slice|]. intros. exact I.
    - apply (QU _ _ _ (fun _ => True)); [|simpl; tauto|right; reflexivity]. eapply quiet_bind; [apply q_get|]. intros [a|] _; [|exact I].
      eapply quiet_bind; [apply q_len|]. intros n _. eapply quiet_bind; [now apply q_slice|]. intros. exact I.
    - apply (QU _ _ _ (fun _ => True)); [|simpl; tauto|right; reflexivity]. eapply quiet_bind; [apply q_len|]. intros [|n] _; [exact I|].
      eapply quiet_bind; [now apply q_slice|]. intros y _. eapply quiet_bind; [now apply q_index|]. intros; exact I.
    - apply (QU _ _ _ (fun _ => True)); [|simpl; tauto|right; reflexivity]. unfold vec_chunks. destruct (_ <? _); [|exact I].
      eapply quiet_bind; [apply q_len|]. intros n _. apply quiet_mapP. intros y. now apply q_slice.
    - apply tw_fmap. eapply t_then; [apply q_iter|]. intros l' (n & ->). apply t_eq_elems; auto. intros vs b Hn Hl Hb. exists n, vs, b. split; [reflexivity|]. split; [apply eff_reads|]. auto.
    - apply tw_fmap. eapply t_then; [apply q_iter|]. intros l (n & ->). apply t_fmt_elems; auto. intros vs Hl. exists n, vs. auto.
    - apply elem_paths.
    - apply slice_paths.
    - apply (QU _ _ _ (fun _ => False)); [apply q_get_ref|simpl; tauto|tauto].
    - apply (QU _ _ _ (fun _ => False)); [|simpl; tauto|tauto]. eapply quiet_bind; [apply q_reserved|]. intros n _. eapply quiet_bind; [apply q_range|]. intros l _. apply q_refs.
    - apply tw_fmap. apply t_act. intros y l ->. apply t_act. intros v l ->. apply t_ret. simpl. exists v. auto.
    - apply tw_fmap. apply t_act. intros y l ->. apply t_act. intros v l ->. apply t_ret. simpl. exists v. auto.
  Qed.

  Definition ptrace (o : op V) (tr : trace) : Prop := grows o = true -> gtrace o tr.
  Theorem op_paths o : tw (floor o) (ptrace o) (ended_pan o) (wpost o) (op_prog E o) [].
  Proof.
    destruct (grows o) eqn:Gr.
    - pose proof (grow_paths o Gr) as H. revert H. generalize (op_prog E o) as p. generalize (@nil acc). intros tr p. revert tr.
      assert (K : forall tr, gtrace o tr -> ptrace o tr) by (intros tr H _; exact H).
      induction p as [r|m|a k IH|a again k IH]; simpl; intros tr [H1 H2]; split; auto.
    - apply tw_P_weak; [|now apply other_paths]. intros tr H. congruence.
  Qed.
End Path.
