(** * Every execution has a linearization. *)

From Coq Require Import List Arith Bool Lia.
From Verif.Model Require Import Prog Mem Deps State Elem Vec Excl Machine.
From Verif Require Import Client Spec Seq.
From Verif.Logic Require Import Inv WP Post Specs Ops Sound Shape Clients Hist Facts Complete Lawful.
Import ListNotations.
Local Arguments Nat.leb : simpl never.
Local Arguments Nat.ltb : simpl never.
Local Arguments Nat.eqb : simpl never.
Local Arguments Nat.add : simpl never.
Local Arguments Nat.sub : simpl never.

Lemma finite_choice (P : nat -> nat -> Prop) n : (forall i, i < n -> exists k, P i k) -> exists f, forall i, i < n -> P i (f i).
Proof.
  induction n as [|n IH]; intros H; [exists (fun _ => 0); lia|].
  destruct IH as (f & Hf); [intros i Hi; apply H; lia|]. destruct (H n ltac:(lia)) as (k & Hk).
  exists (fun i => if i =? n then k else f i). intros i Hi. destruct (Nat.eqb_spec i n) as [->|]; [assumption|apply Hf; lia].
Qed.

Section Lin.
  Context {V : Type} (E : env V) (l0 : list V) (m0 : nat) (h : list (event V)).
  Context (L : lawful l0 m0 h).
  Notation a0 := (abs0 l0 m0).
  Notation ev k e := (nth_error h k = Some e).
  Notation at_ k := (value (before a0 h k)).

  (** ** values before and after an event *)
  Lemma put_at k e i v : ev k e -> a_pos (before a0 h (S k)) i = Has v -> (forall j, j <> i -> ~ changes j e) -> put i v (at_ k) (at_ (S k)).
  Proof.
    intros He Hv N. split; [unfold value; now rewrite Hv|]. intros j Hj. apply (l_value l0 m0 h L k e j He). auto.
  Qed.
  Lemma same_at k e : ev k e -> (forall j, ~ changes j e) -> same (at_ k) (at_ (S k)).
  Proof. intros He N j. apply (l_value l0 m0 h L k e j He). auto. Qed.
  Lemma effect_at k id t x : ev k (EAcc id t x) -> is_effect x = true -> effect x (at_ k) (at_ (S k)).
  Proof.
    intros He F. destruct (L k _ He) as (_ & Lg). pose proof (before_S a0 h k _ He) as B.
    destruct x as [b n|i v|i v|i old v|i j v w|i x|n|n]; try discriminate; simpl in *.
    - split; [unfold value; now rewrite Lg|]. eapply put_at; [exact He| |].
      + rewrite B. simpl. apply upd_same.
      + simpl. congruence.
    - split; [unfold value; now rewrite Lg|]. eapply same_at; [exact He|]. simpl. tauto.
    - split; [unfold value; now rewrite Lg|]. eapply put_at; [exact He| |].
      + rewrite B. simpl. apply upd_same.
      + simpl. congruence.
    - destruct Lg as (N & L1 & L2). split; [unfold value; now rewrite L1|]. split; [unfold value; now rewrite L2|].
      split; [assumption|]. exists v, w. split; [unfold value; now rewrite L1|]. split; [unfold value; now rewrite L2|].
      split; [|split].
      + rewrite B. unfold value. simpl. rewrite upd_other by congruence. now rewrite upd_same.
      + rewrite B. unfold value. simpl. now rewrite upd_same.
      + intros q N1 N2. apply (l_value l0 m0 h L k _ q He). simpl. intros [Y|Y]; congruence.
  Qed.
  Lemma quiet_at k id t x : ev k (EAcc id t x) -> is_effect x = false -> same (at_ k) (at_ (S k)).
  Proof. intros He F. eapply same_at; [exact He|]. destruct x; simpl in *; try discriminate; tauto. Qed.
  Lemma clear_at k : ev k EClear -> forall j, at_ (S k) j = None.
  Proof. intros He j. rewrite (before_S a0 h k _ He). reflexivity. Qed.

  (** ** the point of a call *)
  Definition own (id k : nat) : Prop :=
    (exists e, ev k e /\ is_end id e = true) \/ exists t y, ev k (EAcc id t y).
  Record point (id : nat) (o : op V) (x : outc V) (r k : nat) : Prop := {
    pt_in : id < k <= r;
    pt_own : own id k;
    pt_sem : sem (eqv E) o x (at_ k) (at_ (S k));
    pt_only : forall k' t y, ev k' (EAcc id t y) -> is_effect y = true -> k' = k
  }.
  Lemma ended_event id r o x : ended h id r o x -> exists e, ev r e /\ is_end id e = true /\ id < r /\ r < length h /\ epoch h id = epoch h r /\
    (forall j, ~ changes j e).
  Proof.
    intros R. assert (K : exists e, ev r e /\ is_end id e = true /\ forall j, ~ changes j e).
    { destruct x as [v|m]; destruct R as (t & _ & R); eexists; (split; [exact R|]); simpl; rewrite Nat.eqb_refl; auto. }
    destruct K as (e & Hr & He & N). destruct (l_end l0 m0 h L r id e Hr He) as (_ & _ & H1 & _ & H2 & _). pose proof (nth_lt _ _ _ Hr). exists e. auto 8.
  Qed.

  Lemma effects_eff (tr : list (acc V)) : filter is_effect tr = filter is_effect (eff tr).
  Proof. induction tr as [|y tr IH]; simpl; [reflexivity|]. destruct y; simpl; rewrite ?IH; reflexivity. Qed.
  (** a call with one effect: that is its point *)
  Lemma point_one id r o x e y : ev r e -> is_end id e = true -> filter is_effect (eff (accs id (firstn r h))) = [y] ->
    (forall m m', effect y m m' -> sem (eqv E) o x m m') -> exists k, point id o x r k.
  Proof.
    intros Hr He Ef S. rewrite <- effects_eff in Ef. destruct (l_one_of l0 m0 h L is_effect id r e y Hr He Ef) as (k & t & Hk & Hy & _ & U).
    exists k. split.
    - lia.
    - right. eauto.
    - apply S. apply (effect_at k id t y Hy). assert (Q : In y (filter is_effect (accs id (firstn r h)))) by (rewrite Ef; now left).
      now apply filter_In in Q.
    - intros k' t' z Hz Fz. destruct (Nat.eq_dec k' k) as [|N]; [assumption|]. rewrite (U k' t' z Hz N) in Fz. discriminate.
  Qed.
  (** no effect: its end *)
  Lemma no_effects id r e : ev r e -> is_end id e = true -> filter is_effect (eff (accs id (firstn r h))) = [] ->
    forall k' t y, ev k' (EAcc id t y) -> is_effect y = true -> False.
  Proof.
    intros Hr He Ef k' t y Hy Fy. rewrite <- effects_eff in Ef.
    assert (Q : In y (filter is_effect (accs id (firstn r h)))).
    { apply filter_In. split; [|assumption]. eapply firstn_accs; [|exact Hy]. exact (l_acc_end l0 m0 h L _ _ _ _ _ _ Hy Hr He). }
    rewrite Ef in Q. destruct Q.
  Qed.
  Lemma point_none id r o x e : ev r e -> is_end id e = true -> id < r -> (forall j, ~ changes j e) ->
    filter is_effect (eff (accs id (firstn r h))) = [] -> (forall m m', same m m' -> sem (eqv E) o x m m') -> exists k, point id o x r k.
  Proof.
    intros Hr He Hid N Ef S. exists r. split.
    - lia.
    - left. eauto.
    - apply S. now apply (same_at r e).
    - intros k' t y Hy Fy. destruct (no_effects id r e Hr He Ef k' t y Hy Fy).
  Qed.
  (** position [i] had no value *)
  Lemma point_absent id r o x e i : ev r e -> is_end id e = true -> absent i (accs id (firstn r h)) -> eff (accs id (firstn r h)) = [] ->
    (forall m m', m i = None -> same m m' -> sem (eqv E) o x m m') -> exists k, point id o x r k.
  Proof.
    intros Hr He A Ef S.
    assert (K : exists y, In y (accs id (firstn r h)) /\ forall k t, ev k (EAcc id t y) -> at_ k i = None).
    { destruct A as [(n & Hn & [A|A])|A]; eexists; (split; [exact A|]); intros k t Hk;
        destruct (L k _ Hk) as (_ & Lg); simpl in Lg; unfold value;
        destruct (a_pos (before a0 h k) i) as [| | |v] eqn:Hp; simpl; try reflexivity; exfalso.
      - pose proof (nth_lt _ _ _ Hk). pose proof (l_has_len l0 m0 h L k i v ltac:(lia) Hp). lia.
      - destruct Lg as [_ Lg]. specialize (Lg i v Hp). lia.
      - now apply (Lg v). }
    destruct K as (y & Hy & K). destruct (l_in_accs l0 m0 h L id r y e Hy Hr He) as (k & t & Hk & Hn & _).
    exists k. split.
    - lia.
    - right. eauto.
    - apply S; [eapply K; eauto|]. apply (quiet_at k id t y Hn). destruct (is_effect y) eqn:F; [|reflexivity]. exfalso.
      eapply (no_effects id r e Hr He); eauto. rewrite Ef. reflexivity.
    - intros k' t' z Hz Fz. exfalso. eapply (no_effects id r e Hr He); eauto. rewrite Ef. reflexivity.
  Qed.
  (** what an atomic call does; [N]: evidence for the absence of a value *)
  Definition swapped (i j : nat) (r : ret V) (tr : list (acc V)) : Prop :=
    (exists v w, r = RBool true /\ i <> j /\ eff tr = [AcSwap i j v w]) \/ (r = RBool false /\ eff tr = []).
  Definition inst (N : nat -> list (acc V) -> Prop) (o : op V) (x : outc V) (tr : list (acc V)) : Prop :=
    match o, x with
    | OPush v, Returns r => exists b, r = RNat b /\ eff tr = [AcAdd b 1; AcInit b v]
    | OPush v, Panics m => exists b, m = PMaxCap /\ eff tr = [AcAdd b 1]
    | OPushFor f, Returns r => exists b v, f b = Some v /\ r = RNat b /\ eff tr = [AcAdd b 1; AcInit b v]
    | OPushFor f, Panics m => exists b, eff tr = [AcAdd b 1] /\ (m = PMaxCap \/ (m = PClosure /\ f b = None))
    | OGetCloned i, Returns r | OGetCopied i, Returns r =>
        (exists v, r = ROptVal (Some v) /\ eff tr = [AcRead i v]) \/ (r = ROptVal None /\ eff tr = [] /\ N i tr)
    | OSwap i j, Returns r => swapped i j r tr
    | OElem i o, Returns r => post_elem E i o r tr
    | OElem i o, Panics m => pan_elem i o m tr
    | OSl s (SGetCloned i), Returns r =>
        (i < sl_len s /\ exists v, r = ROptVal (Some v) /\ eff tr = [AcRead (sl_a s + i) v]) \/ (sl_len s <= i /\ r = ROptVal None /\ eff tr = [])
    | OSl s (SSwap i j), Returns r =>
        (i < sl_len s /\ j < sl_len s /\ swapped (sl_a s + i) (sl_a s + j) r tr) \/ ((sl_len s <= i \/ sl_len s <= j) /\ r = RBool false /\ eff tr = [])
    | _, _ => False
    end.
  Lemma point_swap id r o v e i j : ev r e -> is_end id e = true -> id < r -> (forall q, ~ changes q e) ->
    swapped i j v (accs id (firstn r h)) ->
    (forall m m', swap_sem i j (Returns v) m m' -> sem (eqv E) o (Returns v) m m') -> exists k, point id o (Returns v) r k.
  Proof.
    intros Hr He Hid N P S. destruct P as [(x & y & -> & Nij & Ef)|(-> & Ef)].
    - apply (point_one id r o _ e (AcSwap i j x y) Hr He); [now rewrite Ef|]. intros m m' (_ & _ & H). apply S. left. auto.
    - apply (point_none id r o _ e Hr He Hid N); [now rewrite Ef|]. intros m m' H. apply S. right. auto.
  Qed.

  Lemma point_exists N id r o x : ended h id r o x -> atomic o = true -> inst N o x (accs id (firstn r h)) ->
    (forall i, N i (accs id (firstn r h)) -> absent i (accs id (firstn r h))) -> exists k, point id o x r k.
  Proof.
    intros En At P NA. destruct (ended_event id r o x En) as (e & Hr & He & Hid & _ & _ & Nc). rename Nc into N'.
    destruct o; try discriminate; destruct x as [rv|m]; simpl in P; try contradiction.
    - (* push *)
      destruct P as (b & -> & Ef). apply (point_one id r _ _ e (AcInit b v) Hr He); [now rewrite Ef|].
      intros m m' [H1 H2]. left. exists b. auto.
    - destruct P as (b & -> & Ef). apply (point_none id r _ _ e Hr He Hid N'); [now rewrite Ef|]. intros m m' H. right. auto.
    - (* push_for_idx *)
      destruct P as (b & v & Hf & -> & Ef). apply (point_one id r _ _ e (AcInit b v) Hr He); [now rewrite Ef|].
      intros m m' [H1 H2]. left. exists b, v. auto.
    - destruct P as (b & Ef & P). apply (point_none id r _ _ e Hr He Hid N'); [now rewrite Ef|]. intros m' m'' H. right.
      destruct P as [->|(-> & Hf)]; [left|right]; eauto.
    - (* get_cloned *)
      destruct P as [(v & -> & Ef)|(-> & Ef & A)].
      + apply (point_one id r _ _ e (AcRead i v) Hr He); [now rewrite Ef|]. intros m m' [H1 H2]. simpl. rewrite H1. auto.
      + apply (point_absent id r _ _ e i Hr He (NA i A) Ef). intros m m' H1 H2. simpl. rewrite H1. auto.
    - destruct P as [(v & -> & Ef)|(-> & Ef & A)].
      + apply (point_one id r _ _ e (AcRead i v) Hr He); [now rewrite Ef|]. intros m m' [H1 H2]. simpl. rewrite H1. auto.
      + apply (point_absent id r _ _ e i Hr He (NA i A) Ef). intros m m' H1 H2. simpl. rewrite H1. auto.
    - (* swap *)
      eapply point_swap; eauto.
    - (* element *)
      destruct o; simpl in P.
      + destruct P as (v & -> & Ef). apply (point_one id r _ _ e _ Hr He ltac:(rewrite Ef; reflexivity)). intros m m' [H1 H2]. exists v. auto.
      + destruct P as (v & -> & Ef). apply (point_one id r _ _ e _ Hr He ltac:(rewrite Ef; reflexivity)). intros m m' [H1 H2]. exists v. auto.
      + destruct P as (v & u & -> & Ef & Hf). apply (point_one id r _ _ e _ Hr He ltac:(rewrite Ef; reflexivity)).
        intros m m' [H1 H2]. exists v. rewrite Hf. auto.
      + destruct P as (v' & -> & Ef). apply (point_one id r _ _ e _ Hr He ltac:(rewrite Ef; reflexivity)). intros m m' [H1 H2]. exists v'. auto.
      + destruct P as (v' & -> & Ef). apply (point_one id r _ _ e _ Hr He ltac:(rewrite Ef; reflexivity)). intros m m' [H1 H2]. exists v'. auto.
      + destruct P as (v & -> & Ef & Hf). apply (point_one id r _ _ e _ Hr He ltac:(rewrite Ef; reflexivity)).
        intros m m' [H1 H2]. exists v. rewrite Hf. auto.
      + destruct P as (v' & -> & Ef). apply (point_one id r _ _ e _ Hr He ltac:(rewrite Ef; reflexivity)). intros m m' [H1 H2]. exists v'. auto.
    - destruct o; simpl in P; try contradiction.
      + destruct P as (-> & v & Ef & Hf). apply (point_one id r _ _ e _ Hr He ltac:(rewrite Ef; reflexivity)).
        intros m m' [H1 H2]. exists v. rewrite Hf. auto.
      + destruct P as (-> & v & Ef & Hf). apply (point_one id r _ _ e _ Hr He ltac:(rewrite Ef; reflexivity)).
        intros m m' [H1 H2]. exists v. rewrite Hf. auto.
    - (* slice *)
      destruct o; try discriminate; simpl in P.
      + destruct P as [(Hi & v & -> & Ef)|(Hi & -> & Ef)].
        * apply (point_one id r _ _ e _ Hr He ltac:(rewrite Ef; reflexivity)). intros m m' [H1 H2]. simpl. split; [assumption|].
          apply Nat.ltb_lt in Hi. rewrite Hi, H1. split; [discriminate|reflexivity].
        * apply (point_none id r _ _ e Hr He Hid N'); [now rewrite Ef|]. intros m m' H. simpl. split; [assumption|].
          apply Nat.ltb_ge in Hi. now rewrite Hi.
      + destruct P as [(Hi & Hj & P)|(Hij & -> & Ef)].
        * eapply point_swap; [eassumption..|]. intros m m' S. simpl. apply Nat.ltb_lt in Hi, Hj. rewrite Hi, Hj. exact S.
        * apply (point_none id r _ _ e Hr He Hid N'); [now rewrite Ef|]. intros m m' H. simpl.
          destruct (Nat.ltb_spec i (sl_len x0)), (Nat.ltb_spec j (sl_len x0)); simpl; auto. lia.
    - destruct o; try discriminate; simpl in P; contradiction.
  Qed.

  (** ** the linearization *)
  Definition outcome_of (id : nat) : option (outc V) :=
    match find (is_end id) h with
    | Some (ERet _ _ v) => Some (Returns v)
    | Some (EPan _ _ m) => Some (Panics m)
    | _ => None
    end.
  Definition op_of (id : nat) : option (op V) := match nth_error h id with Some (EInv _ _ o) => Some o | _ => None end.
  Lemma op_called id o : op_of id = Some o <-> called h id o.
  Proof.
    unfold op_of, called. split.
    - destruct (nth_error h id) as [[]|] eqn:He; try discriminate. intros [= <-]. pose proof (l_inv l0 m0 h L _ _ _ _ He). subst. eauto.
    - intros (t & ->). reflexivity.
  Qed.
  Lemma ended_fun id r o x r' o' x' : ended h id r o x -> ended h id r' o' x' -> r = r' /\ o = o' /\ x = x'.
  Proof.
    intros H H'. destruct (ended_event _ _ _ _ H) as (e & Hr & He & _). destruct (ended_event _ _ _ _ H') as (e' & Hr' & He' & _).
    assert (r = r') by exact (l_end_once l0 m0 h L id _ _ _ _ Hr Hr' He He'). subst r'. split; [reflexivity|].
    destruct x, x'; destruct H as (t & H1 & H2), H' as (t' & H1' & H2'); rewrite H1 in H1'; injection H1' as <- <-; split; congruence.
  Qed.
  Lemma ended_outcome id r o x : ended h id r o x -> op_of id = Some o /\ outcome_of id = Some x.
  Proof.
    intros H. split.
    - apply op_called. destruct x; destruct H as (t & H & _); exists t; exact H.
    - unfold outcome_of. destruct (ended_event _ _ _ _ H) as (e & Hr & He & _).
      destruct (find (is_end id) h) as [e'|] eqn:Hf.
      + apply find_some in Hf. destruct Hf as [Hin He']. apply in_nth in Hin. destruct Hin as (r' & Hr').
        assert (r = r') by exact (l_end_once l0 m0 h L id _ _ _ _ Hr Hr' He He'). subst r'. rewrite Hr in Hr'. injection Hr' as <-.
        destruct x; destruct H as (t & _ & H); rewrite Hr in H; injection H as ->; reflexivity.
      + exfalso. apply nth_error_In in Hr. pose proof (find_none _ _ Hf e Hr). congruence.
  Qed.
  Lemma outcome_ended id o x : op_of id = Some o -> outcome_of id = Some x -> exists r, ended h id r o x.
  Proof.
    unfold outcome_of. intros Ho Hx. apply op_called in Ho. destruct Ho as (t & Ho).
    destruct (find (is_end id) h) as [e|] eqn:Hf; [|discriminate]. apply find_some in Hf. destruct Hf as [Hin He].
    apply in_nth in Hin. destruct Hin as (r & Hr). exists r.
    destruct e as [|id' t' v|id' t' m| | |]; try discriminate; simpl in He; apply Nat.eqb_eq in He; subst id'; injection Hx as <-.
    - destruct (l_end l0 m0 h L r id _ Hr) as (u & o' & _ & Q & _ & _ & [(v' & Q')|(m' & Q')]); [apply Nat.eqb_refl| |discriminate]. exists t. split; [assumption|]. congruence.
    - destruct (l_end l0 m0 h L r id _ Hr) as (u & o' & _ & Q & _ & _ & [(v' & Q')|(m' & Q')]); [apply Nat.eqb_refl|discriminate|]. exists t. split; [assumption|]. congruence.
  Qed.

  (** the calls that get a point *)
  Context (Sel : op V -> outc V -> bool).
  Hypothesis A_atomic : forall o x, Sel o x = true -> atomic o = true.
  Hypothesis A_other : forall id r o x, ended h id r o x -> atomic o = true -> Sel o x = false -> ~ has_effect id h.
  Context (pt : nat -> nat).
  Hypothesis Pt : forall id r o x, ended h id r o x -> Sel o x = true -> point id o x r (pt id).
  Hypothesis Done : forall id t o, open h id t o -> atomic o = true -> ~ has_effect id h.

  Definition call_at (k id : nat) : list (entry V) :=
    match op_of id, outcome_of id with
    | Some o, Some x => if Sel o x && (pt id =? k) then [ICall id o x] else []
    | _, _ => []
    end.
  Definition part_at (id : nat) (y : acc V) : list (entry V) :=
    match op_of id with
    | Some o => if negb (atomic o) && is_effect y then [IPart id y] else []
    | None => []
    end.
  Definition entry_at (k : nat) : list (entry V) :=
    match nth_error h k with
    | Some EClear => [IClear]
    | Some (EAcc id _ y) => call_at k id ++ part_at id y
    | Some (ERet id _ _) | Some (EPan id _ _) => call_at k id
    | _ => []
    end.
  Definition lin : list (nat * entry V) := flat_map (fun k => map (pair k) (entry_at k)) (seq 0 (length h)).

  Lemma call_at_in k id e : In e (call_at k id) <-> exists o x, op_of id = Some o /\ outcome_of id = Some x /\ Sel o x = true /\ pt id = k /\ e = ICall id o x.
  Proof.
    unfold call_at. split.
    - destruct (op_of id) as [o|]; [|intros []]. destruct (outcome_of id) as [x|]; [|intros []].
      destruct (Sel o x) eqn:Ao; simpl; [|intros []]. destruct (Nat.eqb_spec (pt id) k); intros []; [|destruct H]. exists o, x. auto 8.
    - intros (o & x & -> & -> & -> & <- & ->). rewrite Nat.eqb_refl. now left.
  Qed.
  Lemma part_at_in id y e : In e (part_at id y) <-> exists o, op_of id = Some o /\ atomic o = false /\ is_effect y = true /\ e = IPart id y.
  Proof.
    unfold part_at. split.
    - destruct (op_of id) as [o|]; [|intros []]. destruct (atomic o) eqn:Ao, (is_effect y) eqn:F; simpl; intros []; [|destruct H]. exists o. auto.
    - intros (o & -> & -> & -> & ->). now left.
  Qed.
  Lemma entry_cases k : entry_at k = [] \/ exists e, entry_at k = [e].
  Proof.
    unfold entry_at. destruct (nth_error h k) as [[id t o|id t v|id t m|id t y| |]|]; eauto;
      try (unfold call_at; destruct (op_of id), (outcome_of id); auto; destruct (_ && _); eauto; fail).
    destruct (call_at k id) as [|e1 l1] eqn:C.
    - simpl. unfold part_at. destruct (op_of id); auto. destruct (_ && _); eauto.
    - right. exists e1. assert (I1 : In e1 (call_at k id)) by (rewrite C; now left). apply call_at_in in I1.
      destruct I1 as (o & x & Ho & Hx & At & Hp & _). unfold call_at in C. rewrite Ho, Hx, At, Hp, Nat.eqb_refl in C. simpl in C.
      unfold part_at. rewrite Ho, (A_atomic _ _ At). simpl. rewrite app_nil_r. congruence.
  Qed.
  Lemma lin_in k e : In (k, e) lin <-> k < length h /\ In e (entry_at k).
  Proof.
    unfold lin. rewrite in_flat_map. split.
    - intros (j & Hj & Hin). apply in_map_iff in Hin. destruct Hin as (e' & Q & Hin). injection Q as -> ->. apply in_seq in Hj. split; [lia|assumption].
    - intros [Hk Hin]. exists k. split; [apply in_seq; lia|]. apply in_map_iff. eauto.
  Qed.
  Lemma entry_call k id o x : In (ICall id o x) (entry_at k) -> op_of id = Some o /\ outcome_of id = Some x /\ Sel o x = true /\ pt id = k.
  Proof.
    unfold entry_at. intros H.
    assert (K : forall id', In (ICall id o x) (call_at k id') -> op_of id = Some o /\ outcome_of id = Some x /\ Sel o x = true /\ pt id = k).
    { intros id' Hc. apply call_at_in in Hc. destruct Hc as (o' & x' & H1 & H2 & H3 & H4 & Q). injection Q as -> -> ->. auto. }
    destruct (nth_error h k) as [[id' t o'|id' t v|id' t m|id' t y| |]|]; try destruct H; try discriminate; eauto; try (destruct H; fail).
    apply in_app_iff in H. destruct H as [H|H]; [eauto|]. apply part_at_in in H. destruct H as (? & _ & _ & _ & Q). discriminate.
  Qed.

  Lemma own_entry k id o x : own id k -> op_of id = Some o -> outcome_of id = Some x -> Sel o x = true -> pt id = k -> In (ICall id o x) (entry_at k).
  Proof.
    intros Ow Ho Hx At Hp. assert (C : In (ICall id o x) (call_at k id)) by (apply call_at_in; eauto 8).
    unfold entry_at. destruct Ow as [(e & He & Ie)|(t & y & He)]; rewrite He.
    - destruct e as [|id' t v|id' t m| | |]; try discriminate; simpl in Ie; apply Nat.eqb_eq in Ie; subst id'; assumption.
    - apply in_app_iff. now left.
  Qed.
  Lemma entry_runs k : k < length h ->
    (entry_at k = [] /\ same (at_ k) (at_ (S k))) \/ exists e, entry_at k = [e] /\ entry_sem (eqv E) e (at_ k) (at_ (S k)).
  Proof.
    intros Hk. destruct (nth_error h k) as [e|] eqn:He; [|apply nth_error_None in He; lia].
    destruct (entry_cases k) as [En|(x & En)].
    - left. split; [assumption|]. destruct e as [id t o|id t v|id t m|id t y| |n m].
      + apply (same_at k _ He). simpl. tauto.
      + apply (same_at k _ He). simpl. tauto.
      + apply (same_at k _ He). simpl. tauto.
      + destruct (is_effect y) eqn:F; [|now apply (quiet_at k id t y)]. exfalso.
        destruct (l_acc l0 m0 h L k id t y He) as (o & _ & Ho & _).
        assert (Hop : op_of id = Some o) by (apply op_called; exists t; exact Ho).
        unfold entry_at in En. rewrite He in En. apply app_eq_nil in En. destruct En as [E1 E2].
        unfold part_at in E2. rewrite Hop, F, andb_true_r in E2. destruct (atomic o) eqn:At; [|discriminate].
        destruct (outcome_of id) as [x|] eqn:Hx.
        * destruct (outcome_ended id o x Hop Hx) as (r & R). destruct (Sel o x) eqn:Ao.
          2:{ apply (A_other id r o x R At Ao). exists y. split; [|assumption]. rewrite <- (firstn_all h). eapply firstn_accs; eauto. }
          pose proof (pt_only _ _ _ _ _ (Pt id r o x R Ao) k t y He F) as Q.
          assert (Hin : In (ICall id o x) (call_at k id)) by (apply call_at_in; eauto 8). rewrite E1 in Hin. destruct Hin.
        * apply (Done id t o); [|assumption|].
          -- split; [assumption|]. destruct (existsb (is_end id) h) eqn:Q; [|reflexivity]. exfalso. apply existsb_exists in Q. destruct Q as (e & Hin & Q).
             unfold outcome_of in Hx. destruct (find (is_end id) h) as [e'|] eqn:Hf.
             ++ apply find_some in Hf. destruct Hf as [_ Hf]. destruct e'; discriminate.
             ++ pose proof (find_none _ _ Hf e Hin). congruence.
          -- exists y. split; [|assumption]. rewrite <- (firstn_all h). eapply firstn_accs; eauto.
      + unfold entry_at in En. rewrite He in En. discriminate.
      + apply (same_at k _ He). simpl. tauto.
    - right. exists x. split; [assumption|]. assert (Hin : In x (entry_at k)) by (rewrite En; now left).
      destruct x as [id o x|id y|].
      + destruct (entry_call _ _ _ _ Hin) as (Ho & Hx & At & Hp). destruct (outcome_ended id o x Ho Hx) as (r & R).
        simpl. rewrite <- Hp. apply (pt_sem _ _ _ _ _ (Pt id r o x R At)).
      + unfold entry_at in Hin. rewrite He in Hin. destruct e as [id' t o|id' t v|id' t m|id' t z| |n m]; try destruct Hin;
          try (apply call_at_in in Hin; destruct Hin as (? & ? & _ & _ & _ & _ & Q); discriminate); try discriminate; try contradiction.
        apply in_app_iff in Hin. destruct Hin as [Hin|Hin].
        * apply call_at_in in Hin; destruct Hin as (? & ? & _ & _ & _ & _ & Q); discriminate.
        * apply part_at_in in Hin. destruct Hin as (o & _ & _ & F & Q). injection Q as -> ->. simpl. eapply effect_at; eauto.
      + unfold entry_at in Hin. rewrite He in Hin. destruct e as [id' t o|id' t v|id' t m|id' t z| |n m]; try destruct Hin;
          try (apply call_at_in in Hin; destruct Hin as (? & ? & _ & _ & _ & _ & Q); discriminate); try discriminate; try contradiction.
        * apply in_app_iff in Hin. destruct Hin as [Hin|Hin].
          -- apply call_at_in in Hin; destruct Hin as (? & ? & _ & _ & _ & _ & Q); discriminate.
          -- apply part_at_in in Hin. destruct Hin as (o & _ & _ & F & Q). discriminate.
        * simpl. now apply clear_at.
  Qed.

  Lemma seq_run_app l1 l2 m m1 m' : seq_run (eqv E) l1 m m1 -> seq_run (eqv E) l2 m1 m' -> seq_run (eqv E) (l1 ++ l2) m m'.
  Proof.
    revert m. induction l1 as [|e l1 IH]; intros m H1 H2; simpl in *.
    - assert (S1 : forall e (m m' n n' : vals), entry_sem (eqv E) e m m' -> (forall j, n j = m j) -> (forall j, n' j = m' j) -> entry_sem (eqv E) e n n').
      { clear. intros e m m' n n' H P Q.
        assert (Sm : same m m' -> same n n') by (intros S j; rewrite Q, P; apply S).
        assert (Pu : forall i v, put i v m m' -> put i v n n') by (intros i v [A B]; split; [now rewrite Q|intros j Hj; rewrite Q, P; auto]).
        assert (Ex : forall i j, exchange i j m m' -> exchange i j n n').
        { intros i j (N & v & w & A1 & A2 & A3 & A4 & A5). split; [assumption|]. exists v, w. rewrite !P, !Q. repeat (split; [assumption|]). intros k H1 H2. rewrite P, Q. auto. }
        assert (Sw : forall i j x, swap_sem i j x m m' -> swap_sem i j x n n') by (intros i j x [[A B]|[A B]]; [left|right]; auto).
        destruct e as [id o x|id y|]; simpl in *.
        - destruct o; simpl in *; try contradiction; auto.
          + destruct H as [(i & A & B & C)|[A B]]; [left; exists i|right]; rewrite ?P; auto.
          + destruct H as [(i & v & A & B & C & D)|[[A B]|(A & B & C)]]; [left; exists i, v|right; left|right; right]; rewrite ?P; auto.
          + rewrite P. destruct H; auto.
          + rewrite P. destruct H; auto.
          + destruct H as (old & A & B). exists old. rewrite P. split; [assumption|]. destruct o; destruct B; auto.
          + destruct o; try contradiction.
            * destruct H as [A B]. split; [auto|]. now rewrite P.
            * destruct (_ && _); [auto|]. destruct H; auto.
        - destruct y; simpl in *; try contradiction; rewrite ?P; try (destruct H; auto; fail). destruct H as (A & B & C). auto.
        - intros j. now rewrite Q. }
      assert (S2 : forall l (m m' n n' : vals), seq_run (eqv E) l m m' -> (forall j, n j = m j) -> (forall j, n' j = m' j) -> seq_run (eqv E) l n n').
      { induction l as [|e l IH]; intros a b n n' H P Q; simpl in *.
        - intros j. rewrite P, Q. apply H.
        - destruct H as (c & A & B). exists c. split; [eapply S1; eauto|eapply IH; eauto]. }
      eapply S2; [exact H2| |reflexivity]. intros j. symmetry. apply H1.
    - destruct H1 as (m2 & A & B). exists m2. split; [assumption|]. eapply IH; eauto.
  Qed.
  Lemma lin_runs n : n <= length h ->
    seq_run (eqv E) (map snd (flat_map (fun k => map (pair k) (entry_at k)) (seq 0 n))) (at_ 0) (at_ n).
  Proof.
    induction n as [|n IH]; intros Hn; [intros j; reflexivity|].
    rewrite seq_S, flat_map_app, map_app. change (0 + n) with n. eapply seq_run_app; [apply IH; lia|]. simpl. rewrite app_nil_r, map_map. simpl.
    destruct (entry_runs n ltac:(lia)) as [[-> S]|(e & -> & S)]; simpl; [assumption|]. eexists. split; [exact S|]. intros j. reflexivity.
  Qed.
  Lemma lin_increasing a n : increasing (map fst (flat_map (fun k => map (pair k) (entry_at k)) (seq a n))).
  Proof.
    revert a. induction n as [|n IH]; intros a; simpl; [exact I|]. rewrite map_app.
    assert (K : forall j, In j (map fst (flat_map (fun k => map (pair k) (entry_at k)) (seq (S a) n))) -> a < j).
    { intros j Hj. apply in_map_iff in Hj. destruct Hj as ((j' & e) & <- & Hj). apply in_flat_map in Hj. destruct Hj as (k & Hk & Hj).
      apply in_map_iff in Hj. destruct Hj as (e' & Q & _). injection Q as <- _. apply in_seq in Hk. simpl. lia. }
    destruct (entry_cases a) as [->|(e & ->)]; simpl; auto.
  Qed.

  Lemma linearized : linearization_of (eqv E) Sel h lin (value a0) (value (replay a0 h)).
  Proof.
    split.
    - apply lin_increasing.
    - intros k id o x H. apply lin_in in H. destruct H as [Hk H]. destruct (entry_call _ _ _ _ H) as (Ho & Hx & At & Hp).
      split; [assumption|]. destruct (outcome_ended id o x Ho Hx) as (r & R). exists r. split; [assumption|]. rewrite <- Hp. apply (pt_in _ _ _ _ _ (Pt id r o x R At)).
    - intros id r o x R At. exists (pt id). destruct (ended_outcome _ _ _ _ R) as [Ho Hx]. pose proof (Pt id r o x R At) as P. apply lin_in. split.
      + destruct (ended_event _ _ _ _ R) as (e & _ & _ & _ & Hr & _). pose proof (pt_in _ _ _ _ _ P). lia.
      + apply own_entry; auto. apply (pt_own _ _ _ _ _ P).
    - intros k k' id o o' x x' H H'. apply lin_in in H, H'. destruct H as [_ H], H' as [_ H'].
      destruct (entry_call _ _ _ _ H) as (_ & _ & _ & <-). destruct (entry_call _ _ _ _ H') as (_ & _ & _ & <-). reflexivity.
    - intros k id x. rewrite lin_in. split.
      + intros [Hk H]. unfold entry_at in H. destruct (nth_error h k) as [[id' t o|id' t v|id' t m|id' t z| |n m]|] eqn:He; try destruct H;
          try (apply call_at_in in H; destruct H as (? & ? & _ & _ & _ & _ & Q); discriminate); try discriminate; try contradiction.
        apply in_app_iff in H. destruct H as [H|H].
        * apply call_at_in in H; destruct H as (? & ? & _ & _ & _ & _ & Q); discriminate.
        * apply part_at_in in H. destruct H as (o & Ho & At & F & Q). injection Q as -> ->. split; [assumption|]. exists t, o. apply op_called in Ho. auto.
      + intros (F & t & o & He & Ho & At). split; [now apply nth_lt in He|]. unfold entry_at. rewrite He. apply in_app_iff. right.
        apply part_at_in. exists o. apply op_called in Ho. auto.
    - intros k. rewrite lin_in. split.
      + intros [Hk H]. unfold entry_at in H. destruct (nth_error h k) as [[id' t o|id' t v|id' t m|id' t z| |n m]|] eqn:He; try destruct H;
          try (apply call_at_in in H; destruct H as (? & ? & _ & _ & _ & _ & Q); discriminate); try discriminate; try contradiction; [|reflexivity].
        apply in_app_iff in H. destruct H as [H|H].
        * apply call_at_in in H; destruct H as (? & ? & _ & _ & _ & _ & Q); discriminate.
        * apply part_at_in in H. destruct H as (o & Ho & At & F & Q). discriminate.
      + intros He. split; [now apply nth_lt in He|]. unfold entry_at. rewrite He. now left.
    - unfold lin. rewrite <- (before_all a0 h (length h)) by lia. apply (lin_runs (length h)). lia.
  Qed.
End Lin.

Section Exists.
  Context {V : Type} (E : env V) (l0 : list V) (m0 : nat) (h : list (event V)).
  Context (L : lawful l0 m0 h).
  Lemma linearized_of A : (forall o x, A o x = true -> atomic o = true) ->
    (forall id r o x, ended h id r o x -> atomic o = true -> A o x = false -> ~ has_effect id h) ->
    (forall id r o x, ended h id r o x -> A o x = true -> exists k, point E l0 m0 h id o x r k) ->
    (forall id t o, open h id t o -> atomic o = true -> ~ has_effect id h) ->
    exists lin, linearization_of (eqv E) A h lin (value (abs0 l0 m0)) (value (replay (abs0 l0 m0) h)).
  Proof.
    intros HA HO HP Done.
    destruct (finite_choice (fun id k => forall r o x, ended h id r o x -> A o x = true -> point E l0 m0 h id o x r k) (length h)) as (pt & Pt).
    { intros id _. destruct (op_of h id) as [o|] eqn:Ho; [destruct (outcome_of h id) as [x|] eqn:Hx; [destruct (A o x) eqn:At|]|].
      - destruct (outcome_ended l0 m0 h L id o x Ho Hx) as (r & R).
        destruct (HP id r o x R At) as (k & P). exists k. intros r' o' x' R' _.
        destruct (ended_fun l0 m0 h L _ _ _ _ _ _ _ R R') as (<- & <- & <-). assumption.
      - exists 0. intros r' o' x' R' At'. destruct (ended_outcome l0 m0 h L _ _ _ _ R') as [Q Q']. congruence.
      - exists 0. intros r' o' x' R' At'. destruct (ended_outcome l0 m0 h L _ _ _ _ R') as [_ Q]. congruence.
      - exists 0. intros r' o' x' R' At'. destruct (ended_outcome l0 m0 h L _ _ _ _ R') as [Q _]. congruence. }
    eexists. apply (linearized E l0 m0 h L A HA HO pt); [|assumption].
    intros id r o x R At. apply Pt; auto. destruct (ended_event l0 m0 h L _ _ _ _ R) as (e & _ & _ & H1 & H2 & _). lia.
  Qed.
End Exists.

Section Explained.
  Context {V : Type} (E : env V) (ro nl : bool) (l0 : list V) (m0 : nat).
  Context (snap : nat -> shared V) (h : list (event V)).
  Context (X : explained E ro nl l0 m0 snap h).
  Lemma explained_inst id r o x : ended h id r o x -> atomic o = true -> inst E absent o x (accs id (firstn r h)).
  Proof.
    intros R At. destruct x as [v|m].
    - destruct (h_returned _ _ _ _ _ _ _ X id r o v R) as (_ & _ & _ & _ & P & _). destruct o; try discriminate; simpl in *; auto.
      + destruct P as (b & -> & _ & Ef). eauto.
      + destruct P as (b & w & Hf & -> & _ & Ef). eauto 6.
      + destruct P as [(a & w & -> & N & Ef & _)|(-> & Ef & _)]; [left|right]; eauto 6.
      + destruct o; try discriminate; simpl in *; auto. destruct P as [(H1 & H2 & P)|P]; [left|right; assumption].
        split; [assumption|]. split; [assumption|]. destruct P as [(a & w & -> & N & Ef & _)|(-> & Ef & _)]; [left|right]; eauto 6.
    - destruct (h_panicked _ _ _ _ _ _ _ X id r o m R) as (_ & _ & _ & _ & P). destruct o; try discriminate; simpl in *; auto.
      + destruct P as (b & -> & _ & Ef). eauto.
      + destruct P as (b & Ef & [(-> & _)|(-> & Hf)]); exists b; auto.
      + destruct o; try discriminate; contradiction.
  Qed.
  Lemma explained_point id r o x : ended h id r o x -> atomic o = true -> exists k, point E l0 m0 h id o x r k.
  Proof.
    intros R At. apply (point_exists E l0 m0 h (explained_lawful _ _ _ _ _ _ _ X) absent id r o x R At); [now apply explained_inst|auto].
  Qed.
  Lemma linearizable : (forall id t o, open h id t o -> atomic o = true -> ~ has_effect id h) ->
    exists lin, linearization (eqv E) h lin (value (abs0 l0 m0)) (value (replay (abs0 l0 m0) h)).
  Proof.
    intros Done. apply (linearized_of E l0 m0 h (explained_lawful _ _ _ _ _ _ _ X)); auto; [congruence|apply explained_point].
  Qed.
End Explained.
