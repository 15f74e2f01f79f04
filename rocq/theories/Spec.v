(** * Vocabulary of the statements: histories and the abstract vector they describe.

    Nothing here refers to the state of the implementation.  A history is the list of the events of
    an execution ([Machine.event]), oldest first. *)

From Coq Require Import List Arith Bool.
From Verif.Model Require Import Prog Mem Deps State Elem Vec Excl Machine.
From Verif Require Import Client.
Import ListNotations.

Section Spec.
  Context {V : Type}.
  Notation event := (event V).
  Notation history := (list event).

  (** ** Calls *)

  (** The events of call [id] that end it. *)
  Definition is_end (id : nat) (e : event) : bool :=
    match e with ERet j _ _ | EPan j _ _ => j =? id | _ => false end.
  (** Call [id] of thread [t], a call of [o], has started and not ended. *)
  Definition open (h : history) (id t : nat) (o : op V) : Prop :=
    nth_error h id = Some (EInv id t o) /\ existsb (is_end id) h = false.
  (** The accesses made by call [id]. *)
  Definition accs (id : nat) (h : history) : list (acc V) :=
    flat_map (fun e => match e with EAcc j _ a => if j =? id then [a] else [] | _ => [] end) h.
  (** Call [id] is a call of [o].  It returned [v] / panicked with [m], which is the [r]-th event. *)
  Definition called (h : history) (id : nat) (o : op V) : Prop :=
    exists t, nth_error h id = Some (EInv id t o).
  Definition returned (h : history) (id r : nat) (o : op V) (v : ret V) : Prop :=
    exists t, nth_error h id = Some (EInv id t o) /\ nth_error h r = Some (ERet id t v).
  Definition panicked (h : history) (id r : nat) (o : op V) (m : panic) : Prop :=
    exists t, nth_error h id = Some (EInv id t o) /\ nth_error h r = Some (EPan id t m).
  (** Growth call [id] returned, at event [r], and was given the [n] positions from [b] on. *)
  Definition grew (h : history) (id r b n : nat) : Prop :=
    exists o, returned h id r o (RNat b) /\ grows o = true /\ request o = n.
  (** [vs] are the values a growth call has to store when it is given the positions from [b] on. *)
  Definition supplies (o : op V) (b : nat) (vs : list V) : Prop :=
    match o with
    | OPush v => vs = [v]
    | OPushFor f => exists v, f b = Some v /\ vs = [v]
    | OExtend n it | OExtendN it n => firstn n it = map Some vs /\ length vs = n
    | OExtendFor f n => exists it, f b = Some (n, it) /\ firstn n it = map Some vs /\ length vs = n
    | _ => False
    end.
  (** The positions made available by call [id], with their values, in order of time. *)
  Definition stored (id : nat) (h : history) : list (nat * V) :=
    flat_map (fun a => match a with AcInit i v => [(i, v)] | _ => [] end) (accs id h).

  (** Nobody is inside a call. *)
  Definition at_rest (h : history) : Prop := forall id t o, ~ open h id t o.

  (** How many times the vector was cleared before the [k]-th event. *)
  Definition is_clear (e : event) : bool := match e with EClear => true | _ => false end.
  Definition epoch (h : history) (k : nat) : nat := length (filter is_clear (firstn k h)).

  (** A statement about each event and the events before it. *)
  Definition each (P : history -> event -> Prop) (h : history) : Prop :=
    forall h1 e h2, h = h1 ++ e :: h2 -> P h1 e.

  (** Threads make one call at a time; [clear] and [reserve_maximum_capacity] exclude calls. *)
  Definition well_formed (h1 : history) (e : event) : Prop :=
    match e with
    | EInv id t o => id = length h1 /\ forall id' o', ~ open h1 id' t o'
    | ERet id t _ | EPan id t _ | EAcc id t _ => exists o, open h1 id t o
    | EClear | EReserve _ _ => at_rest h1
    end.

  (** ** The abstract vector *)

  Inductive pos : Type :=
  | Unreserved               (* never handed out *)
  | Reserved (id : nat)      (* handed out to the running call [id], no value yet *)
  | Abandoned                (* handed out to a call that panicked before giving it a value *)
  | Has (v : V).             (* has a value *)

  Record abs : Type := Abs {
    a_len : nat;             (* number of positions handed out *)
    a_pos : nat -> pos;
    a_max : nat              (* maximum capacity *)
  }.

  Definition in_range (b n i : nat) : bool := (b <=? i) && (i <? b + n).

  (** What an event does to the abstract vector. *)
  Definition apply (a : abs) (e : event) : abs :=
    match e with
    | EAcc id _ (AcAdd b n) =>
        Abs (a_len a + n) (fun i => if in_range b n i then Reserved id else a_pos a i) (a_max a)
    | EAcc _ _ (AcInit i v) => Abs (a_len a) (upd (a_pos a) i (Has v)) (a_max a)
    | EAcc _ _ (AcWrite i _ w) => Abs (a_len a) (upd (a_pos a) i (Has w)) (a_max a)
    | EAcc _ _ (AcSwap i j v w) => Abs (a_len a) (upd (upd (a_pos a) i (Has w)) j (Has v)) (a_max a)
    | EPan id _ _ =>
        Abs (a_len a)
            (fun i => match a_pos a i with
                      | Reserved j => if j =? id then Abandoned else Reserved j
                      | p => p
                      end) (a_max a)
    | EClear => Abs 0 (fun _ => Unreserved) (a_max a)
    | EReserve _ m => Abs (a_len a) (a_pos a) m
    | _ => a
    end.
  Definition replay (a : abs) (h : history) : abs := fold_left apply h a.

  (** A new vector with the elements [l] and maximum capacity [m]. *)
  Definition abs0 (l : list V) (m : nat) : abs :=
    Abs (length l) (fun i => match nth_error l i with Some v => Has v | None => Unreserved end) m.

  (** The abstract vector before the [k]-th event. *)
  Definition before (a : abs) (h : history) (k : nat) : abs := replay a (firstn k h).

  (** Accesses that overwrite the value at position [i]; none of them from event [j] up to event [k]. *)
  Definition overwrites (i : nat) (e : event) : Prop :=
    match e with
    | EAcc _ _ (AcWrite j _ _) => j = i
    | EAcc _ _ (AcSwap j k _ _) => j = i \/ k = i
    | _ => False
    end.
  Definition untouched (h : history) (i j k : nat) : Prop :=
    forall q e, j <= q < k -> nth_error h q = Some e -> ~ overwrites i e.

  (** The accesses of call [id] do not change the vector. *)
  Definition only_reads (id : nat) (h : history) : Prop :=
    forall x, In x (accs id h) ->
      match x with AcAdd _ _ | AcInit _ _ | AcWrite _ _ _ | AcSwap _ _ _ _ => False | _ => True end.

  (** Since the last [clear] no growth call panicked. *)
  Definition no_growth_panic (h : history) : Prop :=
    forall r id o m, panicked h id r o m -> grows o = true -> epoch h r <> epoch h (length h).

  (** Before the [k]-th event some call other than [id] is running that may lock position [i]. *)
  Definition busy (h : history) (id i k : nat) : Prop :=
    exists id' t o, id' <> id /\ open (firstn k h) id' t o /\ touches o i.

  (** The length of the vector that the result of a call shows. *)
  Definition shows (o : op V) (v : ret V) (n : nat) : Prop :=
    match o, v with
    | OLen, RNat k => n = k
    | OIsEmpty, RBool b => b = true /\ n = 0
    | OIter, RElems l => n = length l
    | OIterCloned, RVals l | OCloneToVec, RVals l | OMap _, RVals l => n = length l
    | OAsSlice, RSl x => n = sl_len x
    | OSplitAt _, RSl2 x y => n = sl_len x + sl_len y
    | OSplitFirst, ROptSplit o | OSplitLast, ROptSplit o =>
        n = match o with Some (_, x) => S (sl_len x) | None => 0 end
    | _, _ => False
    end.
  Definition saw_len (h : history) (id r n : nat) : Prop :=
    exists o v, returned h id r o v /\ shows o v n.

  Definition val_of (p : pos) : option V := match p with Has v => Some v | _ => None end.
  Definition value (a : abs) (i : nat) : option V := val_of (a_pos a i).

  (** What must hold for an event to be possible: this is the meaning of the accesses. *)
  Definition legal (a : abs) (e : event) : Prop :=
    match e with
    | EAcc id _ x =>
        match x with
        | AcAdd b n => a_len a = b
        | AcInit i v => a_pos a i = Reserved id
        | AcRead i v => a_pos a i = Has v
        | AcWrite i old _ => a_pos a i = Has old
        | AcSwap i j v w => i <> j /\ a_pos a i = Has v /\ a_pos a j = Has w
        | AcSt i NONE => forall v, a_pos a i <> Has v
        | AcSt i _ => exists v, a_pos a i = Has v
        | AcResv n => a_len a = n
        | AcCap n => n <= a_max a /\ forall i v, a_pos a i = Has v -> i < n
        end
    | ERet id _ _ => forall i, a_pos a i <> Reserved id
    | EReserve _ m => a_max a <= m
    | _ => True
    end.
End Spec.

Global Arguments pos : clear implicits.
Global Arguments abs : clear implicits.
