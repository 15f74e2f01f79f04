(** * Executions with closures that call back into the vector, and the history they look like. *)

From Coq Require Import List Arith Bool.
From Verif.Model Require Import Prog Mem Deps State Elem Vec Excl Machine Reentrant.
From Verif Require Import Client.
Import ListNotations.

Section Nested.
  Context {V : Type} (E : env V).

  (** Answer number [k] of the user's code to call [id]. *)
  Definition answered (l : list (nat * option (ans V))) (id k : nat) : option (ans V) :=
    nth k (map snd (filter (fun p => fst p =? id) l)) None.

  (** The event in a machine where each nested call is made by a thread of its own, and the closures
      are functions that give the answers [w]. *)
  Definition flat_event (w : nat -> nat -> option (ans V)) (e : revent V) : event V :=
    match e with
    | NInv id t d o => EInv id (agent t d) (with_answers (w id) o)
    | NRet id t d r => ERet id (agent t d) r
    | NPan id t d m => EPan id (agent t d) m
    | NAcc id t d a => EAcc id (agent t d) a
    | NClear => EClear
    | NReserve n m => EReserve n m
    end.
  Definition flatten (c : rcfg V) : list (event V) := map (flat_event (answered (answers c))) (rhist c).

  (** The discipline of [Client.v]. *)
  Definition rclient (ro nl : bool) (n0 : nat) (c : rcfg V) (l : rlabel V) : Prop :=
    match l with
    | NLInv _ o => let o := with_answers (fun _ => None) o in
                   allowed E ro nl o /\ requested n0 (flatten c) + request o < wmod E
    | NLClear => ~ overrun (flatten c)
    | NLStep _ | NLAns _ _ | NLReserve _ => True
    end.

  Inductive rreach (P : rcfg V -> rlabel V -> Prop) (c0 : rcfg V) : rcfg V -> Prop :=
  | rreach_start : rreach P c0 c0
  | rreach_step c l c' : rreach P c0 c -> P c l -> rstep E c l = RNext c' -> rreach P c0 c'.

  Fixpoint rpath (P : rcfg V -> rlabel V -> Prop) (c : rcfg V) (ls : list (rlabel V)) (c' : rcfg V) : Prop :=
    match ls with
    | [] => c' = c
    | l :: ls' => P c l /\ exists d, rstep E c l = RNext d /\ rpath P d ls' c'
    end.
  (** Steps of calls of thread [t]. *)
  Definition rsteps_of (t : nat) (ls : list (rlabel V)) : nat :=
    length (filter (fun l => match l with NLStep u => u =? t | _ => false end) ls).

  Definition rexecution (ro nl : bool) (l0 : list V) (c0 m0 : nat) (c : rcfg V) : Prop :=
    env_ok E /\ capok E c0 m0 /\ length l0 <= c0 /\ length l0 < wmod E /\
    rreach (rclient ro nl (length l0)) (rstart l0 c0 m0) c.

  (** ** Nesting *)

  (** Call [id] has returned or panicked. *)
  Definition is_rend (id : nat) (e : revent V) : bool :=
    match e with NRet j _ _ _ | NPan j _ _ _ => j =? id | _ => false end.
  Definition rdone (h : list (revent V)) (id : nat) : bool := existsb (is_rend id) h.
  (** Call [id], a call of [o] by thread [t] from inside [d] closures, has started and not ended. *)
  Definition ropen (h : list (revent V)) (id t d : nat) (o : rop V) : Prop :=
    nth_error h id = Some (NInv id t d o) /\ rdone h id = false.
  (** Call [id2] was made inside a closure that call [id1], a call of [o], runs; maybe by a method called
      there. *)
  Definition inside (h : list (revent V)) (id2 id1 : nat) (o : rop V) : Prop :=
    exists t d d2 o2, d < d2 /\ ropen (firstn id2 h) id1 t d o /\ nth_error h id2 = Some (NInv id2 t d2 o2).
  (** What the accesses of call [id] did. *)
  Definition raccs (h : list (revent V)) (id : nat) : list (acc V) :=
    flat_map (fun e => match e with NAcc j _ _ a => if j =? id then [a] else [] | _ => [] end) h.
  (** The values read by call [id]. *)
  Definition values_read (h : list (revent V)) (id : nat) : list V :=
    flat_map (fun e => match e with NAcc j _ _ (AcRead _ v) => if j =? id then [v] else [] | _ => [] end) h.
  (** The element whose value a call lends to the closure it runs after reading [n] values. *)
  Definition lends (o : rop V) (n : nat) : option nat :=
    match o with
    | RElemMap i | RElemUpdate i => Some i
    | RMap | RFilter | RFold _ | RReduce => Some n
    | RSlMap x | RSlFilter x | RSlFold x _ | RSlReduce x => Some (sl_a x + n)
    | RPlain _ | RFillWith | RSlFillWith _ | RPushFor | RExtend _ | RExtendFor _ | RExtendN _ => None
    end.
  (** Call [id] was made inside a closure that was lent the value of the element at position [i]. *)
  Definition has_lent (h : list (revent V)) (id i : nat) : Prop :=
    exists id1 o, inside h id id1 o /\ lends o (length (values_read (firstn id h) id1)) = Some i.
  (** An access to the value of the element at position [i]. *)
  Definition on_elem (i : nat) (x : acc V) : Prop :=
    match x with
    | AcRead j _ | AcWrite j _ _ => j = i
    | AcSwap j k _ _ => j = i \/ k = i
    | _ => False
    end.
  (** An access that changes the value of the element at position [i]. *)
  Definition changes (i : nat) (x : acc V) : Prop :=
    match x with
    | AcWrite j _ _ | AcInit j _ => j = i
    | AcSwap j k _ _ => j = i \/ k = i
    | _ => False
    end.
  (** Calls that access the value of the element at position [i] before they end; the same for [get_cloned] and
      [get_copied], which do so if the element exists. *)
  Definition uses (o : rop V) (i : nat) : Prop :=
    match o with
    | RElemMap j | RElemUpdate j | RPlain (OElem j _) => j = i
    | RPlain (OSl x (SGetCloned j)) => j < sl_len x /\ i = sl_a x + j
    | RPlain (OSl x (SIterCloned | SCloneToVec | SFill _ | SDebug)) => sl_a x <= i < sl_a x + sl_len x
    | _ => False
    end.
  Definition fetches (o : rop V) (i : nat) : Prop := o = RPlain (OGetCloned i) \/ o = RPlain (OGetCopied i).
  (** Growth calls, how many positions a call reserves, and the elements it may lock.  None of this depends on
      the answers of the closures. *)
  Definition rgrows (o : rop V) : bool := grows (with_answers (fun _ => None) o).
  Definition asks (o : rop V) : nat := request (with_answers (fun _ => None) o).
  Definition rtouches (o : rop V) (i : nat) : Prop := touches (with_answers (fun _ => None) o) i.
  (** Call [id] reserved the [n] positions from [b] on. *)
  Definition took (h : list (revent V)) (id b n : nat) : Prop := exists t d, In (NAcc id t d (AcAdd b n)) h.
  (** The innermost open call of thread [t] was made from inside [d] closures. *)
  Definition innermost (h : list (revent V)) (t d : nat) : Prop := forall id d' o, ropen h id t d' o -> d' <= d.
End Nested.
