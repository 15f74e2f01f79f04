(** * How a program may use the vector: which calls the threads may make, and when.

    The machine of [Model/Machine.v] lets every thread call every method with every argument; a
    theorem says with one of the disciplines below which executions it is about. *)

From Coq Require Import List Arith Bool.
From Verif.Model Require Import Prog Mem Deps State Elem Vec Excl Machine.
Import ListNotations.

(** ** Assumptions on the storage (pinned vector)

    [capok c m]: capacities [c] the storage can have with maximum capacity [m].  Growing to [n] works
    up to the maximum capacity, gives room for [n] elements and never shrinks; reserving never lowers
    the maximum capacity.  [Properties/C33.v] proves this for the storages of the library. *)
Record env_ok {V} (E : env V) : Prop := EnvOk {
  ok_le : forall c m, capok E c m -> c <= m;
  ok_pol : forall c m n, capok E c m -> n <= m -> exists c', policy E c m n = Some c';
  ok_pol' : forall c m n c', capok E c m -> policy E c m n = Some c' ->
            n <= c' /\ c <= c' /\ capok E c' m;
  ok_res : forall c m n m', capok E c m -> reserve E c m n = Some m' -> m <= m' /\ capok E c m'
}.

Section Client.
  Context {V : Type} (E : env V).

  (** ranges for which the slice methods are well behaved without overflow checks *)
  Definition range_ok (r : range) : Prop :=
    ochk E = true \/ forall n p q, range_limits E r n = Some (p, q) -> p <= q.
  Definition ranges_ok (o : op V) : Prop :=
    match o with
    | OSlice r | OSl _ (SSlice r) => range_ok r
    | _ => True
    end.
  Definition updates (o : op V) : bool :=
    match o with
    | OSwap _ _ | OFill _ | OFillWith _ | ODerefMut _ _
    | OElem _ (EReplace _) | OElem _ (ESet _) | OElem _ (EUpdate _)
    | OSl _ (SSwap _ _) | OSl _ (SFill _) | OSl _ (SFillWith _) => true
    | _ => false
    end.
  Definition swaps (o : op V) : bool :=
    match o with OSwap _ _ | OSl _ (SSwap _ _) => true | _ => false end.
  (** [swap(i,i)] *)
  Definition self_swap (o : op V) : bool :=
    match o with OSwap i j => i =? j | OSl _ (SSwap i j) => i =? j | _ => false end.
  Definition derefs (o : op V) : bool := match o with ODeref _ => true | _ => false end.
  Definition mut_refs (o : op V) : bool := match o with ODerefMut _ _ => true | _ => false end.

  (** [ro]: the grow-and-read discipline; [nl]: no method that holds one element while waiting for
      another *)
  Definition allowed (ro nl : bool) (o : op V) : Prop :=
    ranges_ok o /\ mut_refs o = false /\
    (if ro then updates o = false else derefs o = false) /\
    (nl = true -> swaps o = true -> hspin E = false).

  (** How many positions a call asks for. *)
  Definition request (o : op V) : nat :=
    match o with
    | OPush _ | OPushFor _ => 1
    | OExtend n _ | OExtendN _ n | OExtendFor _ n => n
    | _ => 0
    end.
  Definition grows (o : op V) : bool :=
    match o with
    | OPush _ | OPushFor _ | OExtend _ _ | OExtendN _ _ | OExtendFor _ _ => true
    | _ => false
    end.

  (** The positions whose values a call may lock, in order to read or change them. *)
  Definition touches_slice (x : cslice) (o : sop V) (i : nat) : Prop :=
    match o with
    | SGet _ | SIndex _ | SSlice _ | SIter | SSplitAt _ | SSplitFirst | SSplitLast | SChunks _
    | SGetRef _ | SIterRef => False
    | SGetCloned j => j < sl_len x /\ i = sl_a x + j
    | SSwap j k => j < sl_len x /\ k < sl_len x /\ (i = sl_a x + j \/ i = sl_a x + k)
    | _ => sl_a x <= i < sl_a x + sl_len x
    end.
  Definition touches (o : op V) (i : nat) : Prop :=
    match o with
    | OElem j _ => i = j
    | OSl x o => touches_slice x o i
    | OGetCloned j | OGetCopied j => i = j
    | OSwap j k => i = j \/ i = k
    | OIterCloned | OFill _ | OFillWith _ | OIndexOf _ | OContains _ | OCloneToVec | OMap _ | OFilter _
    | OFold _ _ | OReduce _ | OEqList _ | ODebug => True
    | _ => False
    end.

  (** The values a growth call may store. *)
  Definition offers (o : op V) (v : V) : Prop :=
    match o with
    | OPush w => v = w
    | OPushFor f => exists b, f b = Some v
    | OExtend n it | OExtendN it n => In (Some v) (firstn n it)
    | OExtendFor f n => exists b it, f b = Some (n, it) /\ In (Some v) (firstn n it)
    | _ => False
    end.
  (** Call [o] may replace the value [old] at position [i] by [new]. *)
  Definition replaces (o : op V) (i : nat) (old new : V) : Prop :=
    match o with
    | OElem j (EReplace v) | OElem j (ESet v) => i = j /\ new = v
    | OElem j (EUpdate f) => i = j /\ new = fst (f old)
    | OFill v => new = v
    | OFillWith f => exists k, f k = Some new
    | OSl x (SFill v) => sl_a x <= i < sl_a x + sl_len x /\ new = v
    | OSl x (SFillWith f) => sl_a x <= i < sl_a x + sl_len x /\ exists k, f k = Some new
    | ODerefMut j f => i = j /\ new = f old
    | _ => False
    end.
  (** Call [o] may exchange the values at positions [i] and [j]. *)
  Definition exchanges (o : op V) (i j : nat) : Prop :=
    match o with
    | OSwap i' j' => i = i' /\ j = j'
    | OSl x (SSwap i' j') => i' < sl_len x /\ j' < sl_len x /\ i = sl_a x + i' /\ j = sl_a x + j'
    | _ => False
    end.

  (** Executions in which every step satisfies [P]. *)
  Inductive reach (P : cfg V -> label V -> Prop) (c0 : cfg V) : cfg V -> Prop :=
  | reach_start : reach P c0 c0
  | reach_step c l c' : reach P c0 c -> P c l -> step E c l = Next c' -> reach P c0 c'.

  (** Number of positions asked for since the last [clear], including the [n0] initial ones. *)
  Definition requested (n0 : nat) (h : list (event V)) : nat :=
    fold_left (fun n e => match e with EInv _ _ o => n + request o | EClear => 0 | _ => n end) h n0.

  (** Since the last [clear] a growth call panicked without room having been made for its positions:
      beyond the maximum capacity, or in the closure of [push_for_idx]. *)
  Definition overrun (h : list (event V)) : Prop :=
    exists h1 id t m h2 o,
      h = h1 ++ EPan id t m :: h2 /\ ~ In EClear h2 /\ nth_error h1 id = Some (EInv id t o) /\
      (m = PMaxCap \/ (m = PClosure /\ exists f, o = OPushFor f)).

  (** The discipline in terms of the calls only.  The positions asked for must fit into [usize] (see
      C36 for what happens otherwise), and [clear] must not be called after an [overrun] (C38). *)
  Definition client (ro nl : bool) (n0 : nat) (c : cfg V) (l : label V) : Prop :=
    match l with
    | LInv _ o => allowed ro nl o /\ requested n0 (hist c) + request o < wmod E
    | LStep _ => True
    | LClear => ~ overrun (hist c)
    | LReserve _ => True
    end.

  (** [c] is reached from a vector with elements [l0], capacity [c0] and maximum capacity [m0]. *)
  Definition execution (ro nl : bool) (l0 : list V) (c0 m0 : nat) (c : cfg V) : Prop :=
    env_ok E /\ capok E c0 m0 /\ length l0 <= c0 /\ length l0 < wmod E /\
    reach (client ro nl (length l0)) (start l0 c0 m0) c.

  (** ** The same, in terms of the state; used in the proofs. *)

  (** The reservation counter ([usize], [wmod E] values) does not overflow when thread [t] makes its
      next access. *)
  Definition no_wrap (c : cfg V) (t : nat) : Prop :=
    forall x n r k, lookup t (run c) = Some x -> c_prog x = Act (AddResv n r) k ->
                    resv (sh c) + n < wmod E.
  (** [LClear]: the length handed to the storage is within its capacity. *)
  Definition disciplined (ro nl : bool) (c : cfg V) (l : label V) : Prop :=
    match l with
    | LInv _ o => allowed ro nl o
    | LStep t => no_wrap c t
    | LClear => resv (sh c) <= cap (sh c)
    | LReserve _ => True
    end.
End Client.
