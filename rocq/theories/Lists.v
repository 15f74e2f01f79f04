(** * Vocabulary of the statements about methods that go over several elements.

    Nothing here refers to the implementation; only the type of the calls, of the results and of the
    events is shared with it. *)

From Coq Require Import List Arith Bool.
From Verif.Model Require Import Prog Mem Deps State Elem Vec Excl Machine.
From Verif Require Import Client Spec.
Import ListNotations.

Section Lists.
  Context {V : Type}.
  Notation history := (list (event V)).

  (** ** What a call did, in order of time *)

  (** The positions whose values call [id] read or changed. *)
  Definition visited (id : nat) (h : history) : list nat :=
    flat_map (fun a => match a with
                       | AcRead i _ | AcWrite i _ _ => [i]
                       | AcSwap i j _ _ => [i; j]
                       | _ => []
                       end) (accs id h).
  (** The values it read; the values it replaced, with the new values. *)
  Definition read_vals (id : nat) (h : history) : list V :=
    flat_map (fun a => match a with AcRead _ v => [v] | _ => [] end) (accs id h).
  Definition written_vals (id : nat) (h : history) : list (V * V) :=
    flat_map (fun a => match a with AcWrite _ v w => [(v, w)] | _ => [] end) (accs id h).

  (** ** Methods of a vector as methods of a slice *)

  (** The method of a slice that corresponds to a method of a vector. *)
  Definition method (o : op V) : option (sop V) :=
    match o with
    | OSl _ q => Some q
    | OIter => Some SIter
    | OIterCloned => Some SIterCloned
    | OFill v => Some (SFill v)
    | OFillWith f => Some (SFillWith f)
    | OIndexOf v => Some (SIndexOf v)
    | OContains v => Some (SContains v)
    | OCloneToVec => Some SCloneToVec
    | OMap f => Some (SMap f)
    | OFilter f => Some (SFilter f)
    | OFold u f => Some (SFold u f)
    | OReduce f => Some (SReduce f)
    | OEqList l => Some (SEqList l)
    | ODebug => Some SDebug
    | OAsSlice => Some (SSlice (BUnb, BUnb))
    | OSlice r => Some (SSlice r)
    | OSplitAt m => Some (SSplitAt m)
    | OSplitFirst => Some SSplitFirst
    | OSplitLast => Some SSplitLast
    | OChunks k => Some (SChunks k)
    | _ => None
    end.

  (** [n] is a length of the vector that call [id], which ended at event [r], may have found: not less
      than what was found before, not more than what is found later, all positions below it have values,
      and it includes all the positions [0 .. m-1] that had values from the start, if no other call was
      using one of them during the call. *)
  Definition length_during (a0 : abs V) (h : history) (id r n : nat) : Prop :=
    (forall p q k, saw_len h p q k -> q < id -> epoch h q = epoch h id -> k <= n) /\
    (forall p q k, saw_len h p q k -> r < p -> epoch h p = epoch h id -> n <= k) /\
    (forall i, i < n -> exists v, value (before a0 h r) i = Some v) /\
    (forall m, (forall i, i < m -> exists v, value (before a0 h id) i = Some v) ->
               (forall i k, i < m -> id < k < r -> ~ busy h id i k) -> m <= n).

  (** The call is about the positions [a .. a+n-1]. *)
  Definition covers (a0 : abs V) (h : history) (id r : nat) (o : op V) (a n : nat) : Prop :=
    match o with
    | OSl x _ => a = sl_a x /\ n = sl_len x
    | _ => a = 0 /\ length_during a0 h id r n
    end.

  (** The values of the positions from [a] on are [ws] at event [r]. *)
  Definition has_values (a0 : abs V) (h : history) (r a : nat) (ws : list V) : Prop :=
    forall k, k < length ws -> value (before a0 h r) (a + k) = nth_error ws k.

  (** ** Functions on lists *)

  (** Position of the first element that satisfies [p]. *)
  Fixpoint first_index (p : V -> bool) (l : list V) : option nat :=
    match l with
    | [] => None
    | x :: l' => if p x then Some 0 else match first_index p l' with Some k => Some (S k) | None => None end
    end.
  Fixpoint same_lists (eq : V -> V -> bool) (l l' : list V) : bool :=
    match l, l' with
    | [], [] => true
    | x :: l, y :: l' => eq x y && same_lists eq l l'
    | _, _ => false
    end.
  (** Closures may panic ([None]) and keep state: [f k] is call number [k].  [fold_opt f u l] is the left fold, [None] if the closure panicked. *)
  Fixpoint fold_opt {U} (f : nat -> U -> V -> option U) (u : U) (l : list V) : option U :=
    match l with
    | [] => Some u
    | v :: l' => match f 0 u v with Some u' => fold_opt (fun k => f (S k)) u' l' | None => None end
    end.
  Fixpoint map_opt {U} (f : nat -> V -> option U) (l : list V) : option (list U) :=
    match l with
    | [] => Some []
    | v :: l' => match f 0 v, map_opt (fun k => f (S k)) l' with Some u, Some r => Some (u :: r) | _, _ => None end
    end.
  (** What [Debug] prints: the elements in brackets, separated. *)
  Definition printed (l : list V) : list (piece V) :=
    match l with
    | [] => [POpen; PClose]
    | v :: l' => POpen :: PFirst v :: map PNext l' ++ [PClose]
    end.
  (** The positions from [a] on with flag [true]. *)
  Definition selected (a : nat) (bs : list bool) : list nat :=
    map fst (filter snd (combine (seq a (length bs)) bs)).

  (** The result of method [q] on the positions [a .. a + length ws - 1] with the values [ws];
      [None] if a closure panicked. *)
  Definition list_result (eq : V -> V -> bool) (q : sop V) (a : nat) (ws : list V) : option (ret V) :=
    match q with
    | SIter => Some (RElems (seq a (length ws)))
    | SIterCloned | SCloneToVec => Some (RVals ws)
    | SIndexOf v => Some (ROptNat (first_index (fun x => eq x v) ws))
    | SContains v => Some (RBool (existsb (fun x => eq x v) ws))
    | SMap f => match map_opt f ws with Some us => Some (RVals us) | None => None end
    | SFilter f => match map_opt f ws with Some bs => Some (RElems (selected a bs)) | None => None end
    | SFold u f => match fold_opt f u ws with Some r => Some (RVal r) | None => None end
    | SReduce f => match ws with
                   | [] => Some (ROptVal None)
                   | w :: ws' => match fold_opt f w ws' with Some r => Some (ROptVal (Some r)) | None => None end
                   end
    | SEqList l => Some (RBool (same_lists eq ws l))
    | SDebug => Some (RPieces (printed ws))
    | _ => None
    end.
  (** These methods. *)
  Definition reads_all (q : sop V) : bool :=
    match q with
    | SIterCloned | SCloneToVec | SIndexOf _ | SContains _ | SMap _ | SFilter _ | SFold _ _ | SReduce _
    | SEqList _ | SDebug => true
    | _ => false
    end.
  (** Those that may stop before the end. *)
  Definition stops_early (q : sop V) : bool :=
    match q with SIndexOf _ | SContains _ | SEqList _ => true | _ => false end.
  (** Those that apply a closure to the elements. *)
  Definition applies (q : sop V) : bool :=
    match q with SMap _ | SFilter _ | SFold _ _ | SReduce _ => true | _ => false end.

  (** ** Slices *)

  (** Start and end of a range, for a collection of [n] elements, limited to [n]. *)
  Definition range_start (g : range) (n : nat) : nat :=
    Nat.min n (match fst g with BIncl a => a | BExcl a => S a | BUnb => 0 end).
  Definition range_end (g : range) (n : nat) : nat :=
    Nat.min n (match snd g with BIncl b => S b | BExcl b => b | BUnb => n end).
  (** The bounds can be computed without overflow. *)
  Definition range_fits (W : nat) (g : range) : Prop :=
    match fst g with BExcl a => S a < W | _ => True end /\
    match snd g with BIncl b => S b < W | _ => True end.

  (** [xs] are slices of the positions [a .. a+n-1], one after the other, of [k] elements each, except
      possibly for a shorter, not empty last one. *)
  Fixpoint chunked (k a n : nat) (xs : list cslice) : Prop :=
    match xs with
    | [] => n = 0
    | x :: xs' => 0 < n /\ x = CSlice a (Nat.min k n) /\ chunked k (a + Nat.min k n) (n - Nat.min k n) xs'
    end.
End Lists.
