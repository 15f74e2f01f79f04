(** * Threads sharing one [ConcurrentVec]: sequentially consistent interleaving of the atomic
      accesses of any number of threads, each calling any sequence of methods. *)

From Coq Require Import List Arith Bool.
From Verif.Model Require Import Prog Mem Deps State Elem Vec Excl.
Import ListNotations.
Local Open Scope prog_scope.

Section Machine.
  Context {V : Type} (E : env V).

  (** ** Calls *)

  (** Methods of [ConcurrentElement] (/repo/src/elem.rs). *)
  Inductive eop : Type :=
  | ECloned
  | ECopied
  | EMap (f : V -> option V)
  | EReplace (v : V)
  | ESet (v : V)
  | EUpdate (f : V -> V * bool)
  | EEq (v : V).

  (** Methods of [ConcurrentSlice] (/repo/src/concurrent_slice). *)
  Inductive sop : Type :=
  | SGet (i : nat)
  | SIndex (i : nat)
  | SGetCloned (i : nat)
  | SSlice (r : range)
  | SIter
  | SIterCloned
  | SSwap (i j : nat)
  | SFill (v : V)
  | SFillWith (f : nat -> option V)
  | SIndexOf (v : V)
  | SContains (v : V)
  | SCloneToVec
  | SMap (f : nat -> V -> option V)
  | SFilter (f : nat -> V -> option bool)
  | SFold (init : V) (f : nat -> V -> V -> option V)
  | SReduce (f : nat -> V -> V -> option V)
  | SSplitAt (m : nat)
  | SSplitFirst
  | SSplitLast
  | SChunks (k : nat)
  | SEqList (l : list V)
  | SDebug
  | SGetRef (i : nat)
  | SIterRef.

  (** Methods of [ConcurrentVec], calls of element and slice methods on references obtained before,
      and uses of the references obtained from the unsafe methods. *)
  Inductive op : Type :=
  | OPush (v : V)
  | OPushFor (f : nat -> option V)
  | OExtend (claimed : nat) (it : list (option V))
  | OExtendFor (f : nat -> option (nat * list (option V))) (n : nat)
  | OExtendN (it : list (option V)) (n : nat)
  | OLen
  | OIsEmpty
  | OCap
  | OMaxCap
  | OGet (i : nat)
  | OIndex (i : nat)
  | OGetCloned (i : nat)
  | OGetCopied (i : nat)
  | OSlice (r : range)
  | OAsSlice
  | OIter
  | OIterCloned
  | OSwap (i j : nat)
  | OFill (v : V)
  | OFillWith (f : nat -> option V)
  | OIndexOf (v : V)
  | OContains (v : V)
  | OCloneToVec
  | OMap (f : nat -> V -> option V)
  | OFilter (f : nat -> V -> option bool)
  | OFold (init : V) (f : nat -> V -> V -> option V)
  | OReduce (f : nat -> V -> V -> option V)
  | OSplitAt (m : nat)
  | OSplitFirst
  | OSplitLast
  | OChunks (k : nat)
  | OEqList (l : list V)
  | ODebug
  | OElem (i : nat) (o : eop)           (* method call on a [&ConcurrentElement] *)
  | OSl (x : cslice) (o : sop)          (* method call on a [ConcurrentSlice] *)
  | OGetRef (i : nat)                   (* get_ref, get_raw, get_mut, get_raw_mut *)
  | OIterRef                            (* iter_ref, iter_mut *)
  | ODeref (i : nat)                    (* read through a [&T] obtained before *)
  | ODerefMut (i : nat) (f : V -> V).   (* write through a [&mut T] obtained before *)

  (** Results. *)
  Inductive ret : Type :=
  | RUnit
  | RNat (n : nat)
  | ROptNat (o : option nat)
  | RBool (b : bool)
  | RVal (v : V)
  | ROptVal (o : option V)
  | RVals (l : list V)
  | RElem (i : nat)                     (* &ConcurrentElement *)
  | ROptElem (o : option nat)
  | RElems (l : list nat)
  | RSl (x : cslice)
  | RSl2 (x y : cslice)
  | RSls (l : list cslice)
  | ROptSplit (o : option (nat * cslice))
  | RPieces (l : list (piece V))
  | ROptRef (o : option nat)            (* Option<&T> *)
  | RRefs (l : list nat).

  Definition eop_prog (i : nat) (o : eop) : prog V ret :=
    match o with
    | ECloned => fmap RVal (elem_cloned i)
    | ECopied => fmap RVal (elem_copied i)
    | EMap f => fmap RVal (elem_map i f)
    | EReplace v => fmap RVal (elem_replace i v)
    | ESet v => fmap (fun _ => RUnit) (elem_set i v)
    | EUpdate f => fmap (fun _ => RUnit) (elem_update i f)
    | EEq v => fmap RBool (elem_eq E i v)
    end.

  Definition sop_prog (x : cslice) (o : sop) : prog V ret :=
    match o with
    | SGet i => fmap ROptElem (slice_get x i)
    | SIndex i => fmap RElem (slice_index x i)
    | SGetCloned i => fmap ROptVal (slice_get_cloned x i)
    | SSlice r => fmap RSl (slice_slice E x r)
    | SIter => fmap RElems (slice_iter x)
    | SIterCloned => fmap RVals (slice_iter_cloned x)
    | SSwap i j => fmap RBool (slice_swap E x i j)
    | SFill v => fmap (fun _ => RUnit) (slice_fill x v)
    | SFillWith f => fmap (fun _ => RUnit) (slice_fill_with x f)
    | SIndexOf v => fmap ROptNat (slice_index_of E x v)
    | SContains v => fmap RBool (slice_contains E x v)
    | SCloneToVec => fmap RVals (slice_clone_to_vec x)
    | SMap f => fmap RVals (slice_map x f)
    | SFilter f => fmap RElems (slice_filter x f)
    | SFold init f => fmap RVal (slice_fold x init f)
    | SReduce f => fmap ROptVal (slice_reduce x f)
    | SSplitAt m => fmap (fun p => RSl2 (fst p) (snd p)) (slice_split_at E x m)
    | SSplitFirst => fmap ROptSplit (slice_split_first E x)
    | SSplitLast => fmap ROptSplit (slice_split_last E x)
    | SChunks k => fmap RSls (slice_chunks E x k)
    | SEqList l => fmap RBool (slice_eq_list E x l)
    | SDebug => fmap RPieces (slice_debug x)
    | SGetRef i => fmap ROptRef (slice_get_ref x i)
    | SIterRef => fmap RRefs (slice_iter_ref x)
    end.

  Definition op_prog (o : op) : prog V ret :=
    match o with
    | OPush v => fmap RNat (push v)
    | OPushFor f => fmap RNat (push_for_idx f)
    | OExtend n it => fmap RNat (extend E n it)
    | OExtendFor f n => fmap RNat (extend_for_idx E f n)
    | OExtendN it n => fmap RNat (extend_n_items E it n)
    | OLen => fmap RNat vec_len
    | OIsEmpty => fmap RBool vec_is_empty
    | OCap => fmap RNat vec_capacity
    | OMaxCap => fmap RNat vec_maximum_capacity
    | OGet i => fmap ROptElem (vec_get i)
    | OIndex i => fmap RElem (vec_index i)
    | OGetCloned i => fmap ROptVal (vec_get_cloned i)
    | OGetCopied i => fmap ROptVal (vec_get_copied i)
    | OSlice r => fmap RSl (vec_slice E r)
    | OAsSlice => fmap RSl (vec_as_slice E)
    | OIter => fmap RElems vec_iter
    | OIterCloned => fmap RVals vec_iter_cloned
    | OSwap i j => fmap RBool (vec_swap E i j)
    | OFill v => fmap (fun _ => RUnit) (vec_fill v)
    | OFillWith f => fmap (fun _ => RUnit) (vec_fill_with f)
    | OIndexOf v => fmap ROptNat (vec_index_of E v)
    | OContains v => fmap RBool (vec_contains E v)
    | OCloneToVec => fmap RVals (vec_clone_to_vec E)
    | OMap f => fmap RVals (vec_map f)
    | OFilter f => fmap RElems (vec_filter f)
    | OFold init f => fmap RVal (vec_fold init f)
    | OReduce f => fmap ROptVal (vec_reduce E f)
    | OSplitAt m => fmap (fun p => RSl2 (fst p) (snd p)) (vec_split_at E m)
    | OSplitFirst => fmap ROptSplit (vec_split_first E)
    | OSplitLast => fmap ROptSplit (vec_split_last E)
    | OChunks k => fmap RSls (vec_chunks E k)
    | OEqList l => fmap RBool (vec_eq_list E l)
    | ODebug => fmap RPieces vec_debug
    | OElem i o => eop_prog i o
    | OSl x o => sop_prog x o
    | OGetRef i => fmap ROptRef (vec_get_ref i)
    | OIterRef => fmap RRefs vec_iter_ref
    | ODeref i => fmap RVal (deref i)
    | ODerefMut i f => fmap RVal (deref_mut i f)
    end.

  (** ** References handed out by the library.  A program can only use a reference it got. *)
  Inductive grant : Type :=
  | GElem (i : nat)
  | GSlice (x : cslice)
  | GRef (i : nat).

  Definition grants (r : ret) : list grant :=
    match r with
    | RElem i => [GElem i]
    | ROptElem (Some i) => [GElem i]
    | RElems l => map GElem l
    | RSl x => [GSlice x]
    | RSl2 x y => [GSlice x; GSlice y]
    | RSls l => map GSlice l
    | ROptSplit (Some (i, x)) => [GElem i; GSlice x]
    | ROptRef (Some i) => [GRef i]
    | RRefs l => map GRef l
    | _ => []
    end.

  (** The reference a call needs. *)
  Definition needs (o : op) : option grant :=
    match o with
    | OElem i _ => Some (GElem i)
    | OSl x _ => Some (GSlice x)
    | ODeref i | ODerefMut i _ => Some (GRef i)
    | _ => None
    end.

  (** ** Configurations *)

  (** What is observable (calls and returns) and, in addition, what the atomic accesses of a call
      did to the vector.  [id] identifies a call: it is the position of its [EInv] in the history. *)
  Inductive event : Type :=
  | EInv (id t : nat) (o : op)
  | ERet (id t : nat) (r : ret)
  | EPan (id t : nat) (m : panic)
  | EAcc (id t : nat) (a : acc V)
  | EClear
  | EReserve (n m : nat).

  Record call : Type := Call { c_id : nat; c_op : op; c_prog : prog V ret }.

  Record cfg : Type := Cfg {
    sh : shared V;
    run : list (nat * call);      (* threads with an unfinished call *)
    hist : list event;            (* oldest first *)
    given : list grant            (* references handed out since the last clear *)
  }.

  Fixpoint lookup (t : nat) (l : list (nat * call)) : option call :=
    match l with
    | [] => None
    | (u, c) :: l' => if t =? u then Some c else lookup t l'
    end.
  Fixpoint remove (t : nat) (l : list (nat * call)) : list (nat * call) :=
    match l with
    | [] => []
    | (u, c) :: l' => if t =? u then l' else (u, c) :: remove t l'
    end.

  Inductive label : Type :=
  | LInv (t : nat) (o : op)       (* thread t starts a call *)
  | LStep (t : nat)               (* thread t makes its next atomic access, returns or panics *)
  | LClear                        (* clear(&mut self) *)
  | LReserve (n : nat).           (* reserve_maximum_capacity(&mut self, n) *)

  Inductive stepped : Type :=
  | Next (c : cfg)
  | Fault (f : fault)
  | Disabled.                     (* the label is not possible here *)

  Definition after (t : nat) (c : cfg) (x : call) (p : prog V ret) (s : shared V) (l : list (acc V)) : cfg :=
    Cfg s ((t, Call (c_id x) (c_op x) p) :: remove t (run c))
        (hist c ++ map (EAcc (c_id x) t) l) (given c).

  Definition step_thread (t : nat) (c : cfg) : stepped :=
    match lookup t (run c) with
    | None => Disabled
    | Some x =>
        match c_prog x with
        | Ret r => Next (Cfg (sh c) (remove t (run c)) (hist c ++ [ERet (c_id x) t r])
                             (given c ++ grants r))
        | Pan m => Next (Cfg (sh c) (remove t (run c)) (hist c ++ [EPan (c_id x) t m]) (given c))
        | Act a k =>
            match exec E t a (sh c) with
            | Done y s l => Next (after t c x (k y) s l)
            | Bad f => Fault f
            end
        | Spin a again k =>
            match exec E t a (sh c) with
            | Done y s l => if again y then Next c else Next (after t c x (k y) s l)
            | Bad f => Fault f
            end
        end
    end.

  (** Boolean equality on grants, to check that a reference was handed out. *)
  Definition grant_eqb (x y : grant) : bool :=
    match x, y with
    | GElem i, GElem j => i =? j
    | GSlice a, GSlice b => (sl_a a =? sl_a b) && (sl_len a =? sl_len b)
    | GRef i, GRef j => i =? j
    | _, _ => false
    end.
  Definition has_grant (o : op) (l : list grant) : bool :=
    match needs o with
    | None => true
    | Some g => existsb (grant_eqb g) l
    end.

  Definition step (c : cfg) (l : label) : stepped :=
    match l with
    | LInv t o =>
        match lookup t (run c) with
        | Some _ => Disabled
        | None =>
            if has_grant o (given c)
            then Next (Cfg (sh c) ((t, Call (length (hist c)) o (op_prog o)) :: run c)
                           (hist c ++ [EInv (length (hist c)) t o]) (given c))
            else Disabled
        end
    | LStep t => step_thread t c
    | LClear =>
        match run c with
        | [] => match clear (sh c) with
                | XOk s => Next (Cfg s [] (hist c ++ [EClear]) [])
                | XPanic => Next c
                | XBad f => Fault f
                end
        | _ => Disabled
        end
    | LReserve n =>
        match run c with
        | [] => match reserve_maximum_capacity E n (sh c) with
                | XOk (m, s) => Next (Cfg s [] (hist c ++ [EReserve n m]) (given c))
                | XPanic => Next c
                | XBad f => Fault f
                end
        | _ => Disabled
        end
    end.

  (** A vector that was just created, with initial elements [l] (see [Excl.init]). *)
  Definition start (l : list V) (c m : nat) : cfg := Cfg (init l c m) [] [] [].

  (** Executions: the labels in [ls] lead from [c] to [Next c'], or to a fault. *)
  Fixpoint runs (c : cfg) (ls : list label) : stepped :=
    match ls with
    | [] => Next c
    | l :: ls' => match step c l with
                  | Next c' => runs c' ls'
                  | Fault f => Fault f
                  | Disabled => Disabled
                  end
    end.
End Machine.

Global Arguments eop : clear implicits.
Global Arguments sop : clear implicits.
Global Arguments op : clear implicits.
Global Arguments ret : clear implicits.
Global Arguments event : clear implicits.
Global Arguments call : clear implicits.
Global Arguments cfg : clear implicits.
Global Arguments label : clear implicits.
Global Arguments stepped : clear implicits.
