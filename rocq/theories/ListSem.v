(** * The methods as operations on a mathematical list.

    [list_sem eq W chk m o ws x ws'] : on the list [ws], with maximum capacity [m], call [o] ends with [x] and
    turns the list into [ws'].  [eq] is the equality test of the element type, [W] the number of values
    of [usize], [chk] tells whether arithmetic overflow panics.  Nothing here refers to the
    implementation; only the type of the calls, of the results and of the events is shared with it. *)

From Coq Require Import List Arith Bool.
From Verif.Model Require Import Prog Mem Deps State Elem Vec Excl Machine.
From Verif Require Import Client Spec Seq Lists.
Import ListNotations.

Section ListSem.
  Context {V : Type} (eq : V -> V -> bool) (W : nat) (chk : bool).
  Implicit Types (ws vs : list V) (x : outc V).

  (** The elements [a], [a+1], ... of [ws] replaced by [vs]. *)
  Definition splice (a : nat) vs ws : list V := firstn a ws ++ vs ++ skipn (a + length vs) ws.
  (** The elements [a .. a+n-1]. *)
  Definition sublist (a n : nat) ws : list V := firstn n (skipn a ws).

  (** What a call that does not change the list does. *)
  Definition gives ws (r : ret V) x ws' : Prop := x = Returns r /\ ws' = ws.
  Definition fails ws (m : panic) x ws' : Prop := x = Panics m /\ ws' = ws.

  Definition elem_list (i : nat) (o : eop V) ws x ws' : Prop :=
    exists v, nth_error ws i = Some v /\
      match o with
      | ECloned | ECopied => gives ws (RVal v) x ws'
      | EMap f => match f v with Some u => gives ws (RVal u) x ws' | None => fails ws PClosure x ws' end
      | EEq w => gives ws (RBool (eq v w)) x ws'
      | EReplace w => x = Returns (RVal v) /\ ws' = splice i [w] ws
      | ESet w => x = Returns RUnit /\ ws' = splice i [w] ws
      | EUpdate f => x = (if snd (f v) then Returns RUnit else Panics PClosure) /\ ws' = splice i [fst (f v)] ws
      end.

  Definition swap_list (i j : nat) ws x ws' : Prop :=
    if i =? j then gives ws (RBool false) x ws'
    else match nth_error ws i, nth_error ws j with
         | Some v, Some w => x = Returns (RBool true) /\ ws' = splice j [v] (splice i [w] ws)
         | _, _ => gives ws (RBool false) x ws'
         end.

  (** Methods on the elements [a .. a+n-1]. *)
  Definition slice_list (a n : nat) (q : sop V) ws x ws' : Prop :=
    match q with
    | SGet i => gives ws (ROptElem (if i <? n then Some (a + i) else None)) x ws'
    | SIndex i => if i <? n then gives ws (RElem (a + i)) x ws' else fails ws POutOfBounds x ws'
    | SGetCloned i => gives ws (ROptVal (if i <? n then nth_error ws (a + i) else None)) x ws'
    | SGetRef i => gives ws (ROptRef (if i <? n then Some (a + i) else None)) x ws'
    | SIterRef => gives ws (RRefs (seq a n)) x ws'
    | SSlice g =>
        (range_fits W g ->
           if range_start g n <=? range_end g n
           then gives ws (RSl (CSlice (a + range_start g n) (range_end g n - range_start g n))) x ws'
           else fails ws POverflow x ws') /\
        (~ range_fits W g -> chk = true -> fails ws POverflow x ws') /\ ws' = ws
    | SSplitAt m => if m <=? n then gives ws (RSl2 (CSlice a m) (CSlice (a + m) (n - m))) x ws'
                    else fails ws PAssert x ws'
    | SSplitFirst => gives ws (ROptSplit (if n =? 0 then None else Some (a, CSlice (a + 1) (n - 1)))) x ws'
    | SSplitLast => gives ws (ROptSplit (if n =? 0 then None else Some (a + (n - 1), CSlice a (n - 1)))) x ws'
    | SChunks k => if k =? 0 then fails ws PAssert x ws'
                   else exists xs, chunked k a n xs /\ gives ws (RSls xs) x ws'
    | SSwap i j => if (i <? n) && (j <? n) then swap_list (a + i) (a + j) ws x ws'
                   else gives ws (RBool false) x ws'
    | SFill v => x = Returns RUnit /\ ws' = splice a (repeat v n) ws
    | SFillWith f =>
        exists vs k, map Some vs = map f (seq 0 k) /\ ws' = splice a vs ws /\
          ((k = n /\ x = Returns RUnit) \/ (k < n /\ f k = None /\ x = Panics PClosure))
    | _ => match list_result eq q a (sublist a n ws) with
           | Some r => gives ws r x ws'
           | None => fails ws PClosure x ws'
           end
    end.

  (** Appending the first [n] items of an iterator that may end early or panic. *)
  Definition append_list (m n : nat) (it : list (option V)) ws x ws' : Prop :=
    if (0 <? n) && (m <? length ws + n) then fails ws PMaxCap x ws'
    else exists vs, ws' = ws ++ vs /\
           ((firstn n it = map Some vs /\ length vs = n /\ x = Returns (RNat (length ws))) \/
            (length vs < n /\ it = map Some vs /\ x = Panics PShortIter) \/
            (length vs < n /\ (exists it', it = map Some vs ++ None :: it') /\ x = Panics PClosure)).

  Definition list_sem (m : nat) (o : op V) ws x ws' : Prop :=
    match o with
    | OPush v => append_list m 1 [Some v] ws x ws'
    | OPushFor f => match f (length ws) with
                    | Some v => append_list m 1 [Some v] ws x ws'
                    | None => fails ws PClosure x ws'
                    end
    | OExtend n it | OExtendN it n => append_list m n it ws x ws'
    | OExtendFor f n =>
        if (0 <? n) && (m <? length ws + n) then fails ws PMaxCap x ws'
        else match f (length ws) with
             | Some (k, it) => if k =? n then append_list m n it ws x ws' else fails ws PIterLen x ws'
             | None => fails ws PClosure x ws'
             end
    | OLen => gives ws (RNat (length ws)) x ws'
    | OIsEmpty => gives ws (RBool (length ws =? 0)) x ws'
    | OCap => exists n, length ws <= n <= m /\ gives ws (RNat n) x ws'
    | OMaxCap => gives ws (RNat m) x ws'
    | OGet i => slice_list 0 (length ws) (SGet i) ws x ws'
    | OIndex i => slice_list 0 (length ws) (SIndex i) ws x ws'
    | OGetCloned i | OGetCopied i => slice_list 0 (length ws) (SGetCloned i) ws x ws'
    | OGetRef i => slice_list 0 (length ws) (SGetRef i) ws x ws'
    | OIterRef => slice_list 0 (length ws) SIterRef ws x ws'
    | OSwap i j => slice_list 0 (length ws) (SSwap i j) ws x ws'
    | OSl y q => slice_list (sl_a y) (sl_len y) q ws x ws'
    | OElem i o => elem_list i o ws x ws'
    | ODeref i => exists v, nth_error ws i = Some v /\ gives ws (RVal v) x ws'
    | ODerefMut i f => exists v, nth_error ws i = Some v /\ x = Returns (RVal v) /\ ws' = splice i [f v] ws
    | o => match method o with
           | Some q => slice_list 0 (length ws) q ws x ws'
           | None => False
           end
    end.

  (** Collecting an iterator with size hint [hint] into a new vector with maximum capacity [m]; [None]: no
      panic. *)
  Definition collect_list (m : nat) (hint : nat * option nat) (it : list (option V)) (x : option panic) ws : Prop :=
    if match snd hint with Some b => fst hint =? b | None => false end
    then (m < fst hint /\ x = Some PMaxCap) \/
         fst hint <= m /\
           ((firstn (fst hint) it = map Some ws /\ length ws = fst hint /\ x = None) \/
            (length ws < fst hint /\ it = map Some ws /\ x = Some PShortIter) \/
            (length ws < fst hint /\ (exists it', it = map Some ws ++ None :: it') /\ x = Some PClosure))
    else length ws <= m /\
         ((it = map Some ws /\ x = None) \/
          (length ws = m /\ (exists v it', it = map Some ws ++ Some v :: it') /\ x = Some PMaxCap) \/
          ((exists it', it = map Some ws ++ None :: it') /\ x = Some PClosure)).
  (** A correct size hint for an iterator that yields [n] items. *)
  Definition hint_ok (hint : nat * option nat) (n : nat) : Prop :=
    fst hint <= n /\ forall b, snd hint = Some b -> n <= b.

  (** ** Histories of a vector that is used by one call at a time *)

  (** Call [id], which ended at event [r], was alone in the vector. *)
  Definition alone (h : list (event V)) (id r : nat) : Prop :=
    at_rest (firstn id h) /\ forall k e, id < k < r -> nth_error h k = Some e -> exists t y, e = EAcc id t y.
  (** Before the [k]-th event the vector is the list [ws]: as many positions were handed out, with these
      values. *)
  Definition is_list (a : abs V) ws : Prop :=
    a_len a = length ws /\ forall i, value a i = nth_error ws i.

  (** The calls that ended, and the exclusive calls, in order of time. *)
  Inductive past : Type :=
  | JCall (o : op V) (x : outc V)
  | JClear
  | JReserve (m : nat).
  Definition op_of (h : list (event V)) (id : nat) (x : outc V) : list past :=
    match nth_error h id with Some (EInv _ _ o) => [JCall o x] | _ => [] end.
  Definition items (h : list (event V)) : list past :=
    flat_map (fun e => match e with
                       | ERet id _ v => op_of h id (Returns v)
                       | EPan id _ m => op_of h id (Panics m)
                       | EClear => [JClear]
                       | EReserve _ m => [JReserve m]
                       | _ => []
                       end) h.
  (** They lead from the list [ws] with maximum capacity [m] to the list [ws'] with [m']. *)
  Fixpoint list_run (l : list past) (m : nat) ws (m' : nat) ws' : Prop :=
    match l with
    | [] => m' = m /\ ws' = ws
    | JCall o x :: l => exists ws1, list_sem m o ws x ws1 /\ list_run l m ws1 m' ws'
    | JClear :: l => list_run l m [] m' ws'
    | JReserve m1 :: l => m <= m1 /\ list_run l m1 ws m' ws'
    end.
  (** All events are events of thread [t]. *)
  Definition one_thread (h : list (event V)) (t : nat) : Prop :=
    forall e, In e h -> match e with EInv _ u _ | ERet _ u _ | EPan _ u _ | EAcc _ u _ => u = t | _ => True end.
End ListSem.
Global Arguments past : clear implicits.
