(** * The solo interpreter and the machine: one call on a vector at rest. *)

From Coq Require Import List Arith Bool Lia.
From Verif.Model Require Import Prog Mem Deps State Elem Vec Excl Machine.
From Verif Require Import Client Spec Seq Lists ListSem.
From Verif.Logic Require Import Inv WP Post Specs Ops Sound Shape Clients Hist Locks Facts Complete Single SingleOps.
From Verif.Properties Require Import C33 Examples Growth Progress Views Slices Alone.
Import ListNotations.

(** ** Proofs: the solo interpreter and the machine *)
Section Solo.
  Context {V : Type} (E : env V).

  Lemma solo_bind {A B} t (p : prog V A) (k : A -> prog V B) : forall s,
    solo E t (bind p k) s = match solo E t p s with
                            | SDone r s' => solo E t (k r) s'
                            | SPan m s' => SPan m s'
                            | SHang s' => SHang s'
                            | SBad f => SBad f
                            end.
  Proof.
    induction p as [r|m|a k' IH|a again k' IH]; intros s; simpl; auto.
    - destruct (exec E t a s); auto.
    - destruct (exec E t a s); auto. destruct (again x); auto.
  Qed.

  (** the steps of thread [t] do what the solo interpreter does *)
  Lemma solo_steps t (p : prog V (ret V)) : forall c id o, lookup t (run c) = Some (Call id o p) ->
    match solo E t p (sh c) with
    | SDone r s' => exists n c', runs E c (repeat (LStep t) n) = Next c' /\ sh c' = s' /\ run c' = remove t (run c) /\
        given c' = given c ++ grants r /\ exists l, hist c' = hist c ++ map (EAcc id t) l ++ [ERet id t r]
    | SPan m s' => exists n c', runs E c (repeat (LStep t) n) = Next c' /\ sh c' = s' /\ run c' = remove t (run c) /\
        given c' = given c /\ exists l, hist c' = hist c ++ map (EAcc id t) l ++ [EPan id t m]
    | SHang _ => exists n c' p', runs E c (repeat (LStep t) n) = Next c' /\ step E c' (LStep t) = Next c' /\ lookup t (run c') = Some (Call id o p') /\
        remove t (run c') = remove t (run c) /\ exists l, hist c' = hist c ++ map (EAcc id t) l
    | SBad f => exists n, runs E c (repeat (LStep t) n) = Fault f
    end.
  Proof.
    assert (Rm : forall (x : call V) l, remove t ((t, x) :: l) = l) by (intros x l; simpl; now rewrite Nat.eqb_refl).
    induction p as [r|m|a k IH|a again k IH]; intros c id o Lk; simpl.
    - eexists 1, _. simpl. unfold step_thread. rewrite Lk. simpl. split; [reflexivity|]. simpl. repeat split; auto. exists []. reflexivity.
    - eexists 1, _. simpl. unfold step_thread. rewrite Lk. simpl. split; [reflexivity|]. simpl. repeat split; auto. exists []. reflexivity.
    - destruct (exec E t a (sh c)) as [y s' l|f] eqn:Ex; [|exists 1; simpl; unfold step_thread; rewrite Lk; simpl; now rewrite Ex].
      assert (St : step E c (LStep t) = Next (after t c (Call id o (Act a k)) (k y) s' l)) by (simpl; unfold step_thread; rewrite Lk; simpl; now rewrite Ex).
      set (c1 := after t c (Call id o (Act a k)) (k y) s' l) in *.
      assert (L1 : lookup t (run c1) = Some (Call id o (k y))) by (simpl; now rewrite Nat.eqb_refl).
      assert (R1 : remove t (run c1) = remove t (run c)) by (simpl; now rewrite Nat.eqb_refl).
      assert (H1 : hist c1 = hist c ++ map (EAcc id t) l) by reflexivity. assert (G1 : given c1 = given c) by reflexivity.
      specialize (IH y c1 id o L1). change (sh c1) with s' in IH. clearbody c1.
      destruct (solo E t (k y) s') as [r' s2|m' s2|s2|f].
      + destruct IH as (n & c' & H2 & H3 & H4 & HG & l' & H5). exists (S n), c'. cbn [repeat runs]. rewrite St. rewrite H4, R1, HG, G1, H5, H1. repeat split; auto. exists (l ++ l'). now rewrite map_app, <- !app_assoc.
      + destruct IH as (n & c' & H2 & H3 & H4 & HG & l' & H5). exists (S n), c'. cbn [repeat runs]. rewrite St. rewrite H4, R1, HG, G1, H5, H1. repeat split; auto. exists (l ++ l'). now rewrite map_app, <- !app_assoc.
      + destruct IH as (n & c' & p' & H2 & H3 & H4 & H5 & l' & H6). exists (S n), c', p'. cbn [repeat runs]. rewrite St. rewrite H5, R1, H6, H1. repeat split; auto. exists (l ++ l'). now rewrite map_app, <- !app_assoc.
      + destruct IH as (n & H). exists (S n). cbn [repeat runs]. now rewrite St.
    - destruct (exec E t a (sh c)) as [y s' l|f] eqn:Ex; [|exists 1; simpl; unfold step_thread; rewrite Lk; simpl; now rewrite Ex].
      destruct (again y) eqn:Ag.
      { exists 0, c, (Spin a again k). simpl. unfold step_thread. rewrite Lk. simpl. rewrite Ex, Ag. repeat split; auto. exists []. simpl. now rewrite app_nil_r. }
      assert (St : step E c (LStep t) = Next (after t c (Call id o (Spin a again k)) (k y) s' l)) by (simpl; unfold step_thread; rewrite Lk; simpl; now rewrite Ex, Ag).
      set (c1 := after t c (Call id o (Spin a again k)) (k y) s' l) in *.
      assert (L1 : lookup t (run c1) = Some (Call id o (k y))) by (simpl; now rewrite Nat.eqb_refl).
      assert (R1 : remove t (run c1) = remove t (run c)) by (simpl; now rewrite Nat.eqb_refl).
      assert (H1 : hist c1 = hist c ++ map (EAcc id t) l) by reflexivity. assert (G1 : given c1 = given c) by reflexivity.
      specialize (IH y c1 id o L1). change (sh c1) with s' in IH. clearbody c1.
      destruct (solo E t (k y) s') as [r' s2|m' s2|s2|f].
      + destruct IH as (n & c' & H2 & H3 & H4 & HG & l' & H5). exists (S n), c'. cbn [repeat runs]. rewrite St. rewrite H4, R1, HG, G1, H5, H1. repeat split; auto. exists (l ++ l'). now rewrite map_app, <- !app_assoc.
      + destruct IH as (n & c' & H2 & H3 & H4 & HG & l' & H5). exists (S n), c'. cbn [repeat runs]. rewrite St. rewrite H4, R1, HG, G1, H5, H1. repeat split; auto. exists (l ++ l'). now rewrite map_app, <- !app_assoc.
      + destruct IH as (n & c' & p' & H2 & H3 & H4 & H5 & l' & H6). exists (S n), c', p'. cbn [repeat runs]. rewrite St. rewrite H5, R1, H6, H1. repeat split; auto. exists (l ++ l'). now rewrite map_app, <- !app_assoc.
      + destruct IH as (n & H). exists (S n). cbn [repeat runs]. now rewrite St.
  Qed.
End Solo.

(** One call on a vector at rest, with the solo interpreter. *)
Section SoloCall.
  Context {V : Type} (E : env V) (l0 : list V) (c0 m0 : nat) (c : cfg V).
  Hypothesis X : execution E false false l0 c0 m0 c.
  Notation h := (hist c).
  Notation a0 := (abs0 l0 m0).
  Notation id0 := (length (hist c)).

  Lemma runs_app (ls ls' : list (label V)) : forall d, runs E d (ls ++ ls') = match runs E d ls with Next d' => runs E d' ls' | Fault f => Fault f | Disabled => Disabled end.
  Proof. induction ls as [|a ls IH]; intros d; simpl; [reflexivity|]. destruct (step E d a); auto. Qed.
  Lemma runs_fix (t n : nat) (d : cfg V) : step E d (LStep t) = Next d -> runs E d (repeat (LStep t) n) = Next d.
  Proof. intros H. induction n as [|n IH]; cbn [repeat runs]; [reflexivity|]. now rewrite H. Qed.
  Lemma runs_execution t n : forall (d d' : cfg V), execution E false false l0 c0 m0 d -> runs E d (repeat (LStep t) n) = Next d' -> execution E false false l0 c0 m0 d'.
  Proof.
    induction n as [|n IH]; intros d d' Xd; cbn [repeat runs]; [now intros [= <-]|]. destruct (step E d (LStep t)) as [d1| |] eqn:S; try discriminate.
    apply IH. eapply (execution_step E false false l0 c0 m0 d (LStep t)); eauto. exact I.
  Qed.
  Lemma runs_no_fault t n f : forall (d : cfg V), execution E false false l0 c0 m0 d -> runs E d (repeat (LStep t) n) <> Fault f.
  Proof.
    induction n as [|n IH]; intros d Xd; cbn [repeat runs]; [discriminate|]. destruct (step E d (LStep t)) as [d1|g|] eqn:S; [|exfalso; revert S; eapply (execution_no_fault E false false l0 c0 m0); eauto; exact I|discriminate].
    apply IH. eapply (execution_step E false false l0 c0 m0 d (LStep t)); eauto. exact I.
  Qed.

  Lemma solo_call t o : at_rest h -> allowed E false false o -> requested (length l0) h + request o < wmod E -> has_grant o (given c) = true ->
    self_swap o && hspin E = false -> grows o = false \/ ~ overrun h ->
    exists x s' c' l, solo E t (op_prog E o) (sh c) = match x with Returns r => SDone r s' | Panics m => SPan m s' end /\
      execution E false false l0 c0 m0 c' /\ sh c' = s' /\ at_rest (hist c') /\
      hist c' = h ++ EInv id0 t o :: map (EAcc id0 t) l ++ [match x with Returns r => ERet id0 t r | Panics m => EPan id0 t m end] /\
      given c' = given c ++ match x with Returns r => grants r | Panics _ => [] end.
  Proof.
    intros R Al Rq Hg Ns Gp. pose proof (rest_run _ _ _ _ _ _ c X R) as R0.
    destruct (step E c (LInv t o)) as [c1| |] eqn:S; try (cbn in S; rewrite R0 in S; cbn in S; rewrite Hg in S; discriminate).
    assert (Cl : client E false false (length l0) c (LInv t o)) by (split; assumption).
    destruct (C27_ends E l0 c0 m0 c c1 X t o R Cl S Ns Gp) as (n & c2 & H1 & H2).
    pose proof (execution_step E false false l0 c0 m0 c _ c1 X Cl S) as X1.
    cbn in S. rewrite R0 in S. cbn in S. rewrite Hg in S. injection S as S.
    assert (Lk : lookup t (run c1) = Some (Call id0 o (op_prog E o))) by (rewrite <- S; simpl; now rewrite Nat.eqb_refl).
    assert (Rm : remove t (run c1) = []) by (rewrite <- S; simpl; now rewrite Nat.eqb_refl).
    assert (Hh : hist c1 = h ++ [EInv id0 t o]) by (now rewrite <- S).
    assert (Sh : sh c1 = sh c) by (now rewrite <- S). assert (Gv : given c1 = given c) by (now rewrite <- S).
    pose proof (solo_steps E t _ c1 _ _ Lk) as W. rewrite Sh in W.
    destruct (solo E t (op_prog E o) (sh c)) as [r s'|m s'|s'|f].
    - destruct W as (k & c' & W1 & W2 & W3 & W5 & l & W4). pose proof (runs_execution t k c1 c' X1 W1) as X'. exists (Returns r), s', c', l.
      split; [reflexivity|]. split; [assumption|]. split; [assumption|]. split; [apply (run_rest E false false l0 c0 m0); auto; congruence|].
      rewrite W4, Hh, W5, Gv, ?app_nil_r, <- !app_assoc. auto.
    - destruct W as (k & c' & W1 & W2 & W3 & W5 & l & W4). pose proof (runs_execution t k c1 c' X1 W1) as X'. exists (Panics m), s', c', l.
      split; [reflexivity|]. split; [assumption|]. split; [assumption|]. split; [apply (run_rest E false false l0 c0 m0); auto; congruence|].
      rewrite W4, Hh, W5, Gv, ?app_nil_r, <- !app_assoc. auto.
    - exfalso. destruct W as (k & c' & p' & W1 & W2 & W3 & _).
      pose proof (rest_run _ _ _ _ _ _ c2 (runs_execution t n c1 c2 X1 H1) H2) as R2.
      destruct (Nat.le_gt_cases k n) as [L|L].
      + replace n with (k + (n - k)) in H1 by lia. rewrite repeat_app, runs_app, W1, (runs_fix t _ c' W2) in H1. injection H1 as <-. rewrite R2 in W3. discriminate.
      + replace k with (n + (1 + (k - n - 1))) in W1 by lia. rewrite repeat_app, runs_app, H1 in W1. cbn in W1. unfold step_thread in W1. rewrite R2 in W1. discriminate.
    - exfalso. destruct W as (k & W). exact (runs_no_fault t k f c1 X1 W).
  Qed.
  (** ... does to the list what the operation does to lists. *)
  Lemma solo_list t o ws : at_rest h -> is_list (replay a0 h) ws -> allowed E false false o -> requested (length l0) h + request o < wmod E -> has_grant o (given c) = true ->
    self_swap o && hspin E = false -> grows o = false \/ ~ overrun h ->
    exists x s' ws' c' l, solo E t (op_prog E o) (sh c) = match x with Returns r => SDone r s' | Panics m => SPan m s' end /\
      execution E false false l0 c0 m0 c' /\ sh c' = s' /\ at_rest (hist c') /\
      hist c' = h ++ EInv id0 t o :: map (EAcc id0 t) l ++ [match x with Returns r => ERet id0 t r | Panics m => EPan id0 t m end] /\
      list_sem (eqv E) (wmod E) (ochk E) (a_max (replay a0 h)) o ws x ws' /\
      (forall i, value (replay a0 (hist c')) i = nth_error ws' i) /\
      (grows o = false \/ (exists v, x = Returns v) -> is_list (replay a0 (hist c')) ws') /\
      given c' = given c ++ match x with Returns r => grants r | Panics _ => [] end.
  Proof.
    intros R Is Al Rq Hg Ns Gp. destruct (solo_call t o R Al Rq Hg Ns Gp) as (x & s' & c' & l & H1 & H2 & H3 & H4 & H5 & H6).
    set (r := id0 + 1 + length l). assert (Hid : nth_error (hist c') id0 = Some (EInv id0 t o)) by (rewrite H5, nth_error_app2, Nat.sub_diag by lia; reflexivity).
    assert (Hre : nth_error (hist c') r = Some (match x with Returns r => ERet id0 t r | Panics m => EPan id0 t m end)).
    { rewrite H5. unfold r. rewrite nth_error_app2 by lia. replace (id0 + 1 + length l - id0) with (S (length l)) by lia. simpl.
      rewrite nth_error_app2 by (rewrite map_length; lia). now rewrite map_length, Nat.sub_diag. }
    assert (En : ended (hist c') id0 r o x) by (destruct x; exists t; auto).
    assert (Fi : firstn id0 (hist c') = h) by (rewrite H5, firstn_app, Nat.sub_diag, firstn_all; simpl; now rewrite app_nil_r).
    assert (Alo : alone (hist c') id0 r).
    { split; [now rewrite Fi|]. intros k e Hk He. rewrite H5, nth_error_app2 in He by lia. unfold r in Hk. destruct (k - id0) as [|j] eqn:Q; [lia|]. simpl in He.
      rewrite nth_error_app1 in He by (rewrite map_length; lia). rewrite nth_error_map in He. destruct (nth_error l j); [|discriminate]. injection He as <-. eauto. }
    assert (B : before a0 (hist c') id0 = replay a0 h) by (unfold before; now rewrite Fi).
    destruct (C27_step E false false l0 c0 m0 c' H2 id0 r o x ws En Alo) as (ws' & K1 & K2 & K3); [now rewrite B|].
    assert (Ll : length (hist c') = S r) by (rewrite H5, app_length; simpl; rewrite app_length, map_length; simpl; unfold r; lia).
    rewrite (before_all a0 _ (S r)) in K2, K3 by lia. rewrite B in K1.
    exists x, s', ws', c', l. auto 12.
  Qed.
  Lemma solo_panic t o x c' l : no_growth_panic h ->
    hist c' = h ++ EInv id0 t o :: map (EAcc id0 t) l ++ [match x with Returns r => ERet id0 t r | Panics m => EPan id0 t m end] ->
    grows o = false \/ (exists v, x = Returns v) -> no_growth_panic (hist c').
  Proof.
    intros Np Hh G r id o' m (u & P1 & P2) Go. destruct (Nat.lt_ge_cases r id0) as [L|L].
    - destruct (execution_expl _ _ _ _ _ _ c X) as (snap & Ex & _). rewrite Hh, nth_error_app1 in P2 by assumption.
      destruct (h_pan _ _ _ _ _ _ _ Ex _ _ _ _ P2) as (o2 & L1 & L2 & _). rewrite Hh, nth_error_app1 in P1 by lia.
      pose proof (Np r id o' m (ex_intro _ u (conj P1 P2)) Go) as Q. unfold epoch in *. rewrite Hh. rewrite firstn_all in *. rewrite firstn_app. replace (r - id0) with 0 by lia.
      cbn [firstn]. rewrite app_nil_r. rewrite filter_app. replace (filter _ (EInv id0 t o :: _)) with (@nil (event V)); [now rewrite app_nil_r|].
      symmetry. simpl. rewrite filter_app. replace (filter _ [_]) with (@nil (event V)) by (now destruct x). rewrite app_nil_r. clear. induction l as [|y l IH]; [reflexivity|]. exact IH.
    - exfalso. assert (Q : id = id0 /\ exists n, x = Panics n).
      { rewrite Hh, nth_error_app2 in P2 by assumption. destruct (r - id0) as [|j]; [discriminate|]. simpl in P2. 
        destruct (Nat.lt_ge_cases j (length l)) as [Lj|Lj].
        - rewrite nth_error_app1 in P2 by (now rewrite map_length). rewrite nth_error_map in P2. destruct (nth_error l j); discriminate.
        - rewrite nth_error_app2 in P2 by (now rewrite map_length). destruct (j - _) as [|i]; simpl in P2; [|destruct i; discriminate]. destruct x; [discriminate|]. injection P2 as <-. eauto. }
      destruct Q as [-> (n & ->)]. rewrite Hh, nth_error_app2, Nat.sub_diag in P1 by lia. injection P1 as _ <-. destruct G as [G|(v & G)]; [congruence|discriminate].
  Qed.
  Lemma solo_requested t o (x : outc V) c' l :
    hist c' = h ++ EInv id0 t o :: map (EAcc id0 t) l ++ [match x with Returns r => ERet id0 t r | Panics m => EPan id0 t m end] ->
    requested (length l0) (hist c') = requested (length l0) h + request o.
  Proof.
    intros ->. unfold requested. rewrite fold_left_app. simpl. rewrite fold_left_app. simpl. generalize (fold_left (fun (n : nat) (e : event V) => match e with EInv _ _ o => n + request o | EClear => 0 | _ => n end) h (length l0) + request o) as k.
    intros k. replace (fold_left _ (map (EAcc id0 t) l) k) with k; [now destruct x|]. induction l as [|y l IH]; [reflexivity|]. exact IH.
  Qed.
End SoloCall.
