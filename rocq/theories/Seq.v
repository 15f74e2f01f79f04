(** * Sequential specification: calls that take effect in one instant, and linearizations.

    The vector is seen as the partial map from positions to values.  Nothing here refers to the
    implementation; only the type of the calls and of the events is shared with it. *)

From Coq Require Import List Arith Bool.
From Verif.Model Require Import Prog Mem Vec Machine.
From Verif Require Import Client Spec.
Import ListNotations.

Section Seq.
  Context {V : Type} (eq : V -> V -> bool).
  Definition vals : Type := nat -> option V.

  (** How a call ended. *)
  Inductive outc : Type := Returns (r : ret V) | Panics (m : panic).
  Definition ended (h : list (event V)) (id r : nat) (o : op V) (x : outc) : Prop :=
    match x with Returns v => returned h id r o v | Panics m => panicked h id r o m end.

  Definition same (m m' : vals) : Prop := forall j, m' j = m j.
  Definition put (i : nat) (v : V) (m m' : vals) : Prop := m' i = Some v /\ forall j, j <> i -> m' j = m j.
  Definition exchange (i j : nat) (m m' : vals) : Prop :=
    i <> j /\ exists v w, m i = Some v /\ m j = Some w /\ m' i = Some w /\ m' j = Some v /\
                          forall k, k <> i -> k <> j -> m' k = m k.

  Definition elem_sem (i : nat) (o : eop V) (x : outc) (m m' : vals) : Prop :=
    exists old, m i = Some old /\
      match o with
      | ECloned | ECopied => same m m' /\ x = Returns (RVal old)
      | EMap f => same m m' /\ x = match f old with Some u => Returns (RVal u) | None => Panics PClosure end
      | EEq v => same m m' /\ x = Returns (RBool (eq old v))
      | EReplace v => put i v m m' /\ x = Returns (RVal old)
      | ESet v => put i v m m' /\ x = Returns RUnit
      | EUpdate f => put i (fst (f old)) m m' /\ x = if snd (f old) then Returns RUnit else Panics PClosure
      end.
  Definition swap_sem (i j : nat) (x : outc) (m m' : vals) : Prop :=
    (x = Returns (RBool true) /\ exchange i j m m') \/ (x = Returns (RBool false) /\ same m m').

  (** The calls that take effect in one instant, and their effect. *)
  Definition atomic (o : op V) : bool :=
    match o with
    | OPush _ | OPushFor _ | OGetCloned _ | OGetCopied _ | OSwap _ _ | OElem _ _
    | OSl _ (SGetCloned _) | OSl _ (SSwap _ _) => true
    | _ => false
    end.
  Definition sem (o : op V) (x : outc) (m m' : vals) : Prop :=
    match o with
    | OPush v =>
        (exists i, x = Returns (RNat i) /\ m i = None /\ put i v m m') \/
        (x = Panics PMaxCap /\ same m m')
    | OPushFor f =>
        (exists i v, f i = Some v /\ x = Returns (RNat i) /\ m i = None /\ put i v m m') \/
        (x = Panics PMaxCap /\ same m m') \/
        ((exists i, f i = None) /\ x = Panics PClosure /\ same m m')
    | OGetCloned i | OGetCopied i => x = Returns (ROptVal (m i)) /\ same m m'
    | OSwap i j => swap_sem i j x m m'
    | OElem i o => elem_sem i o x m m'
    | OSl s (SGetCloned i) =>
        same m m' /\
        if i <? sl_len s then m (sl_a s + i) <> None /\ x = Returns (ROptVal (m (sl_a s + i)))
        else x = Returns (ROptVal None)
    | OSl s (SSwap i j) =>
        if (i <? sl_len s) && (j <? sl_len s) then swap_sem (sl_a s + i) (sl_a s + j) x m m'
        else x = Returns (RBool false) /\ same m m'
    | _ => False
    end.

  (** The other calls take effect element by element; these are the elementary effects. *)
  Definition effect (x : acc V) (m m' : vals) : Prop :=
    match x with
    | AcInit i v => m i = None /\ put i v m m'
    | AcRead i v => m i = Some v /\ same m m'
    | AcWrite i old v => m i = Some old /\ put i v m m'
    | AcSwap i j v w => m i = Some v /\ m j = Some w /\ exchange i j m m'
    | _ => False
    end.
  Definition is_effect (x : acc V) : bool :=
    match x with AcInit _ _ | AcRead _ _ | AcWrite _ _ _ | AcSwap _ _ _ _ => true | _ => false end.

  (** A linearization: calls, elementary effects of the calls that are not atomic, and [clear]s. *)
  Inductive entry : Type :=
  | ICall (id : nat) (o : op V) (x : outc)
  | IPart (id : nat) (x : acc V)
  | IClear.
  Definition entry_sem (e : entry) (m m' : vals) : Prop :=
    match e with
    | ICall _ o x => sem o x m m'
    | IPart _ x => effect x m m'
    | IClear => forall j, m' j = None
    end.
  Fixpoint seq_run (l : list entry) (m m' : vals) : Prop :=
    match l with
    | [] => same m m'
    | e :: l' => exists m1, entry_sem e m m1 /\ seq_run l' m1 m'
    end.

  Fixpoint increasing (l : list nat) : Prop :=
    match l with
    | [] => True
    | k :: l' => (forall j, In j l' -> k < j) /\ increasing l'
    end.

  (** [lin] gives every ended call that [A] selects a point in time between its start and its end, every
      elementary effect of a call that is not atomic and every [clear] its own point, such that executing
      them one after the other, from [m], gives the results they really had, and leads to [m']. *)
  Record linearization_of (A : op V -> outc -> bool) (h : list (event V)) (lin : list (nat * entry)) (m m' : vals) : Prop := {
    lin_order : increasing (map fst lin);
    lin_calls : forall k id o x, In (k, ICall id o x) lin ->
                  A o x = true /\ exists r, ended h id r o x /\ id < k <= r;
    lin_all : forall id r o x, ended h id r o x -> A o x = true -> exists k, In (k, ICall id o x) lin;
    lin_once : forall k k' id o o' x x', In (k, ICall id o x) lin -> In (k', ICall id o' x') lin -> k = k';
    lin_parts : forall k id x, In (k, IPart id x) lin <->
                  is_effect x = true /\ exists t o, nth_error h k = Some (EAcc id t x) /\ called h id o /\ atomic o = false;
    lin_clears : forall k, In (k, IClear) lin <-> nth_error h k = Some EClear;
    lin_run : seq_run (map snd lin) m m'
  }.
  (** All atomic calls. *)
  Definition linearization := linearization_of (fun o _ => atomic o).
End Seq.
Global Arguments outc : clear implicits.
Global Arguments entry : clear implicits.

(** ** The values stored in the vector, put into it and taken out of it *)
Section Values.
  Context {V : Type}.
  Implicit Types (a : abs V) (h : list (event V)) (e : event V).
  (** The values in the vector, by position. *)
  Definition contents a : list V :=
    flat_map (fun i => match value a i with Some v => [v] | None => [] end) (seq 0 (a_len a)).
  (** The values put into the vector, in order of time: by growth calls, or in place of another value. *)
  Definition put_in h : list V :=
    flat_map (fun e => match e with EAcc _ _ (AcInit _ v) | EAcc _ _ (AcWrite _ _ v) => [v] | _ => [] end) h.
  (** The values taken out of the vector: replaced by another value, or dropped by [clear]. *)
  Definition taken1 a e : list V :=
    match e with EAcc _ _ (AcWrite _ old _) => [old] | EClear => contents a | _ => [] end.
  Fixpoint taken_out a h : list V :=
    match h with
    | [] => []
    | e :: h' => taken1 a e ++ taken_out (apply a e) h'
    end.
  (** The event stores [v] at position [i]. *)
  Definition stores (i : nat) (v : V) (e : event V) : Prop :=
    match e with
    | EAcc _ _ (AcInit j w) | EAcc _ _ (AcWrite j _ w) => j = i /\ w = v
    | EAcc _ _ (AcSwap j k x y) => (k = i /\ x = v) \/ (k <> i /\ j = i /\ y = v)
    | _ => False
    end.
  (** What an access to the vector made by call [o] can be. *)
  Definition source (o : op V) (x : acc V) : Prop :=
    match x with
    | AcAdd _ n => grows o = true /\ n = request o
    | AcInit _ v => offers o v
    | AcWrite i old new => replaces o i old new
    | AcSwap i j _ _ => exchanges o i j
    | AcRead i _ => touches o i \/ o = ODeref i
    | _ => True
    end.
End Values.

(** ** Counting updates *)

(** [o] is an [update] of the element at position [i]. *)
Definition updates_at {V} (i : nat) (o : op V) : bool :=
  match o with OElem j (EUpdate _) => j =? i | _ => false end.
Lemma updates_at_inv {V} i (o : op V) : updates_at i o = true -> exists f, o = OElem i (EUpdate f).
Proof. destruct o; try discriminate. destruct o; try discriminate. simpl. intros H. apply Nat.eqb_eq in H. subst. eauto. Qed.
(** How many calls in [h] are. *)
Definition update_calls {V} (i : nat) (h : list (event V)) : nat :=
  length (filter (fun e => match e with EInv _ _ o => updates_at i o | _ => false end) h).
(** [n] times [f] *)
Fixpoint times {V} (n : nat) (f : V -> V) (v : V) : V :=
  match n with 0 => v | S n' => f (times n' f v) end.
