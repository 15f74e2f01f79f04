(** * C33 Capacity policies *)

From Coq Require Import List Arith Bool Lia.
From Verif.Model Require Import Prog Mem Excl Machine.
From Verif Require Import Client.
Import ListNotations.

Section Fragments.
  Context (next : nat -> nat) (ok : nat -> Prop) (max : nat).
  Context (N1 : forall c, c < next c) (N2 : forall c, ok c -> c < max -> next c <= max /\ ok (next c)).

  Lemma add_fragments_ok fuel : forall c n, ok c -> n <= max -> n <= fuel + c ->
    exists c', add_fragments fuel next c max n = Some c' /\ n <= c' /\ c <= c' /\ ok c'.
  Proof.
    induction fuel as [|k IH]; intros c n Hc Hn Hf; simpl.
    - destruct (Nat.leb_spec n c); [|lia]. exists c. auto.
    - destruct (Nat.leb_spec n c) as [H|H]; [exists c; auto|].
      destruct (N2 c Hc ltac:(lia)) as [H1 H2]. pose proof (N1 c).
      destruct (Nat.leb_spec (next c) max); [|lia].
      destruct (IH (next c) n H2 Hn ltac:(lia)) as (c' & E1 & E2 & E3 & E4). exists c'. repeat split; auto. lia.
  Qed.
  Lemma add_fragments_some fuel : forall c n c', ok c -> add_fragments fuel next c max n = Some c' -> n <= c' /\ c <= c' /\ ok c'.
  Proof.
    induction fuel as [|k IH]; intros c n c' Hc; simpl.
    - destruct (Nat.leb_spec n c); [|discriminate]. intros [= <-]. auto.
    - destruct (Nat.leb_spec n c) as [H|H]; [intros [= <-]; auto|].
      destruct (Nat.leb_spec (next c) max) as [Hx|Hx]; [|discriminate]. intros F. pose proof (N1 c).
      destruct (N2 c Hc ltac:(lia)) as [_ H2]. destruct (IH _ _ _ H2 F) as (A & B & C). repeat split; auto. lia.
  Qed.
End Fragments.

Section Raise.
  Context (next : nat -> nat) (ok : nat -> Prop) (N1 : forall c, c < next c) (N2 : forall c, ok c -> ok (next c)).
  Lemma raise_ok fuel : forall m n, ok m -> m <= raise fuel next m n /\ ok (raise fuel next m n).
  Proof.
    induction fuel as [|k IH]; intros m n Hm; simpl.
    - destruct (n <=? m); auto.
    - destruct (n <=? m); [auto|]. destruct (IH (next m) n (N2 m Hm)). pose proof (N1 m). split; [lia|assumption].
  Qed.
  Lemma raise_enough fuel : forall m n, n <= fuel + m -> n <= raise fuel next m n.
  Proof.
    induction fuel as [|k IH]; intros m n H; simpl; destruct (Nat.leb_spec n m); try lia.
    apply IH. pose proof (N1 m). lia.
  Qed.
End Raise.

Section C33.
  Context {V : Type} (W : nat) (dbg : bool) (q : V -> V -> bool) (hs : bool).

  Lemma linear_next e c max : (exists k f, c = k * 2 ^ e /\ max = f * 2 ^ e /\ k <= f) -> c < max ->
    c + 2 ^ e <= max /\ exists k f, c + 2 ^ e = k * 2 ^ e /\ max = f * 2 ^ e /\ k <= f.
  Proof.
    intros (k & f & -> & -> & H) L. assert (k < f) by nia. split; [nia|]. exists (S k), f. split; [lia|]. split; [reflexivity|lia].
  Qed.
  Lemma pow_pos e : 0 < 2 ^ e.
  Proof. induction e; simpl; lia. Qed.
  Lemma doubling_next c max : (exists k f, c = 4 * (2 ^ k - 1) /\ max = 4 * (2 ^ f - 1) /\ k <= f) -> c < max ->
    2 * c + 4 <= max /\ exists k f, 2 * c + 4 = 4 * (2 ^ k - 1) /\ max = 4 * (2 ^ f - 1) /\ k <= f.
  Proof.
    intros (k & f & -> & -> & H) L. assert (k <> f) by (intros ->; lia). assert (S k <= f) by lia.
    pose proof (Nat.pow_le_mono_r 2 (S k) f ltac:(lia) ltac:(lia)) as P. pose proof (pow_pos k).
    assert (X : 2 * (4 * (2 ^ k - 1)) + 4 = 4 * (2 ^ S k - 1)) by (rewrite Nat.pow_succ_r'; lia).
    rewrite X. split; [lia|]. exists (S k), f. auto.
  Qed.

  (** The three storages of the library satisfy the assumptions of all theorems: growing succeeds up
      to the maximum capacity, never shrinks the storage, and so on. *)
  Theorem C33_fixed_ok : env_ok (fixed_env (V:=V) W dbg q hs).
  Proof.
    constructor; unfold fixed_env; simpl; unfold fixed_capok, fixed_policy, fixed_reserve.
    - intros; lia.
    - intros c m n -> H. exists m. destruct (Nat.leb_spec n m); [reflexivity|lia].
    - intros c m n c' -> H. destruct (Nat.leb_spec n m); [|discriminate]. injection H as <-. auto.
    - discriminate.
  Qed.
  Theorem C33_linear_ok e : env_ok (linear_env (V:=V) W dbg q hs e).
  Proof.
    constructor; unfold linear_env; simpl; unfold linear_capok, linear_policy, linear_reserve.
    - intros c m (k & f & -> & -> & H). nia.
    - intros c m n H Hn. destruct (add_fragments_ok (fun c => c + 2 ^ e) (fun c => linear_capok e c m) m) with (fuel := n) (c := c) (n := n)
        as (c' & Hc & _); auto; [intros; pose proof (pow_pos e); lia|intros; now apply linear_next|lia|eauto].
    - intros c m n c' H Hp. eapply (add_fragments_some (fun c => c + 2 ^ e) (fun c => linear_capok e c m) m) with (fuel := n); eauto;
        [intros; pose proof (pow_pos e); lia|intros; now apply linear_next].
    - intros c m n m' (k & f & -> & -> & H) [= <-].
      destruct (raise_ok (fun c => c + 2 ^ e) (fun m => exists f', m = f' * 2 ^ e /\ f <= f')) with (fuel := n) (m := f * 2 ^ e) (n := n)
        as (A & f' & B & C).
      + intros. pose proof (pow_pos e). lia.
      + intros c (f' & -> & Hf). exists (S f'). split; [lia|lia].
      + eauto.
      + split; [assumption|]. exists k, f'. split; [reflexivity|]. split; [assumption|lia].
  Qed.
  Theorem C33_doubling_ok : env_ok (doubling_env (V:=V) W dbg q hs).
  Proof.
    constructor; unfold doubling_env; cbn [capok policy reserve]; unfold doubling_capok, doubling_policy, doubling_reserve.
    - intros c m (k & f & -> & -> & H). pose proof (Nat.pow_le_mono_r 2 k f ltac:(lia) H). lia.
    - intros c m n H Hn. destruct (add_fragments_ok (fun c => 2 * c + 4) (fun c => doubling_capok c m) m) with (fuel := n) (c := c) (n := n)
        as (c' & Hc & _); auto; [intros; lia|intros; now apply doubling_next|lia|eauto].
    - intros c m n c' H Hp. eapply (add_fragments_some (fun c => 2 * c + 4) (fun c => doubling_capok c m) m) with (fuel := n); eauto;
        [intros; lia|intros; now apply doubling_next].
    - intros c m n m' (k & f & -> & -> & H) Hm. injection Hm as <-.
      destruct (raise_ok (fun c => 2 * c + 4) (fun m => exists f', m = 4 * (2 ^ f' - 1) /\ f <= f')) with (fuel := n) (m := 4 * (2 ^ f - 1)) (n := n)
        as (A & f' & B & C).
      + intros. lia.
      + intros c (f' & -> & Hf). exists (S f'). rewrite Nat.pow_succ_r'. pose proof (pow_pos f'). split; lia.
      + eauto.
      + split; [assumption|]. exists k, f'. split; [reflexivity|]. split; [assumption|lia].
  Qed.

  (** The initial and maximum capacities of the constructors (/repo/src/new.rs:20-56). *)
  Theorem C33_fixed n : capok (fixed_env (V:=V) W dbg q hs) n n.
  Proof. reflexivity. Qed.
  Theorem C33_linear e f : 0 < f -> capok (linear_env (V:=V) W dbg q hs e) (2 ^ e) (f * 2 ^ e).
  Proof. intros H. exists 1, f. repeat split; lia. Qed.
  Theorem C33_doubling : capok (doubling_env (V:=V) W dbg q hs) 4 (4 * (2 ^ 32 - 1)).
  Proof. exists 1, 32. split; [reflexivity|]. split; [reflexivity|lia]. Qed.

  (** Growing to [n] succeeds exactly up to the maximum capacity. *)
  Theorem C33_exact (E : env V) cap max n : env_ok E -> capok E cap max -> n <= max ->
    exists c, policy E cap max n = Some c /\ n <= c <= max.
  Proof.
    intros O C H. destruct (ok_pol _ O _ _ _ C H) as (c & Hc). exists c. split; [assumption|].
    destruct (ok_pol' _ O _ _ _ _ C Hc) as (A & B & D). split; [assumption|]. now apply (ok_le _ O).
  Qed.
  (** and [reserve_maximum_capacity(n)] of a SplitVec makes room for [n] elements. *)
  Theorem C33_linear_reserve e cap max n m : reserve (linear_env (V:=V) W dbg q hs e) cap max n = Some m -> n <= m.
  Proof. simpl. intros [= <-]. apply raise_enough; [|lia]. intros. pose proof (pow_pos e). lia. Qed.
  Theorem C33_doubling_reserve cap max n m : reserve (doubling_env (V:=V) W dbg q hs) cap max n = Some m -> n <= m.
  Proof. cbn [reserve doubling_env]. unfold doubling_reserve. intros [= <-]. apply raise_enough; lia. Qed.
End C33.

(** with_linear_growth(2, 3): room for 4 elements at first; growing to 9 adds two fragments. *)
Example C33_example : policy (linear_env (V:=nat) 100 true Nat.eqb true 2) 4 12 9 = Some 12 /\
                      policy (linear_env (V:=nat) 100 true Nat.eqb true 2) 4 12 13 = None.
Proof. split; reflexivity. Qed.
Print Assumptions C33_doubling_ok.
Print Assumptions C33_exact.
