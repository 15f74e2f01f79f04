(** * Closures that call back into the vector.

    In [Model/Machine.v] a closure passed to a method is a function: it returns or panics at once.  A
    Rust closure can own a reference to the same vector and call any of its [&self] methods while the
    method that called it is suspended, holding the element it was given.  Here the methods that take
    closures (or iterators, whose [next] is user code too) are written once more, with an explicit node
    [RClo] where the user's code runs, and every thread has a stack of suspended calls. *)

From Coq Require Import List Arith Bool Cantor.
From Verif.Model Require Import Prog Mem Deps State Elem Vec Excl Machine.
Import ListNotations.

(** ** The stacks of the threads *)
Section Stacks.
  Context {F : Type}.
  Fixpoint stack (t : nat) (l : list (nat * list F)) : list F :=
    match l with
    | [] => []
    | (u, s) :: l' => if t =? u then s else stack t l'
    end.
  Definition put (t : nat) (s : list F) (l : list (nat * list F)) : list (nat * list F) :=
    let l' := filter (fun p => negb (t =? fst p)) l in
    match s with [] => l' | _ => (t, s) :: l' end.
End Stacks.

Section Reentrant.
  Context {V : Type} (E : env V).

  (** What user code can answer; [None] (of [option ans]) is a panic, also of a nested call whose panic
      it did not catch. *)
  Inductive ans : Type :=
  | AVal (v : V)                 (* a value *)
  | ABool (b : bool)             (* the answer of a predicate *)
  | AEnd                         (* [next] of an iterator: no further item *)
  | ALen (n : nat)               (* an iterator that claims to have [n] items *)
  | AWrite (v : V) (ok : bool).  (* a closure with [&mut T]: it leaves [v]; [ok]: it does not panic *)

  (** An answer of another kind than the one asked for cannot be given; it is read as a panic. *)
  Definition to_val (a : option ans) : option V := match a with Some (AVal v) => Some v | _ => None end.
  Definition to_bool (a : option ans) : option bool := match a with Some (ABool b) => Some b | _ => None end.
  Definition to_write (a : option ans) (old : V) : V * bool :=
    match a with Some (AWrite v ok) => (v, ok) | _ => (old, false) end.

  (** Programs as in [Model/Prog.v]; [RClo k]: user code runs, then the method goes on with its answer. *)
  Inductive rprog (R : Type) : Type :=
  | RRet (r : R)
  | RPan (m : panic)
  | RAct (a : act V) (k : res a -> rprog R)
  | RSpin (a : act V) (again : res a -> bool) (k : res a -> rprog R)
  | RClo (k : option ans -> rprog R).
  Arguments RRet {R} r.
  Arguments RPan {R} m.
  Arguments RAct {R} a k.
  Arguments RSpin {R} a again k.
  Arguments RClo {R} k.

  Fixpoint rbind {A B : Type} (p : rprog A) (f : A -> rprog B) : rprog B :=
    match p with
    | RRet r => f r
    | RPan m => RPan m
    | RAct a k => RAct a (fun x => rbind (k x) f)
    | RSpin a again k => RSpin a again (fun x => rbind (k x) f)
    | RClo k => RClo (fun x => rbind (k x) f)
    end.
  Definition rmap {A B : Type} (f : A -> B) (p : rprog A) : rprog B := rbind p (fun x => RRet (f x)).
  (** code without closures *)
  Fixpoint lift {R : Type} (p : prog V R) : rprog R :=
    match p with
    | Ret r => RRet r
    | Pan m => RPan m
    | Act a k => RAct a (fun x => lift (k x))
    | Spin a again k => RSpin a again (fun x => lift (k x))
    end.
  Local Notation "'let?' x := p 'in' q" := (rbind p (fun x => q)) (at level 200, x pattern, p at level 100, q at level 200).
  Local Notation rchk m x := (lift (chk m x)).

  (** ** Elements *)

  (** [ConcurrentOption::map] (/repo/src/elem.rs:99): the closure runs while the handle is held and the
      value is borrowed *)
  Definition r_option_map {U} (i : nat) (f : option ans -> option U) : rprog (option U) :=
    let? h := lift (spin_handle i SOME) in
    if h : bool then
      let? _ := lift (doo (RdBeg i)) in
      RClo (fun u =>
        let? _ := lift (doo (RdEnd i)) in
        let? _ := lift (drop_handle i SOME) in
        match f u with Some u => RRet (Some u) | None => RPan PClosure end)
    else RRet None.
  (** /repo/src/elem.rs:95-100 *)
  Definition r_elem_map {U} (i : nat) (f : option ans -> option U) : rprog U :=
    let? o := r_option_map i f in rchk PHasValue o.

  (** [ConcurrentOption::update_if_some] (/repo/src/elem.rs:174) *)
  Definition r_option_update (i : nat) : rprog bool :=
    let? h := lift (spin_handle i SOME) in
    if h : bool then
      let? _ := lift (doo (WrBeg i)) in
      RClo (fun u =>
        let? old := lift (doo (WrEnd i (fun v => fst (to_write u v)))) in
        let? _ := lift (drop_handle i SOME) in
        if snd (to_write u old) then RRet true else RPan PClosure)
    else RRet false.
  (** /repo/src/elem.rs:170-175 *)
  Definition r_elem_update (i : nat) : rprog unit :=
    let? ok := r_option_update i in
    if ok : bool then RRet tt else RPan PUpdate.

  (** ** Loops over elements *)

  (** /repo/src/iter_shorthands.rs:22-27, concurrent_slice/iter_shorthands.rs:22-27 *)
  Fixpoint r_map_elems (l : list nat) : rprog (list V) :=
    match l with
    | [] => RRet []
    | e :: l' =>
        let? u := r_elem_map e to_val in
        let? r := r_map_elems l' in
        RRet (u :: r)
    end.
  (** /repo/src/iter_shorthands.rs:45-50, concurrent_slice/iter_shorthands.rs:45-50 *)
  Fixpoint r_filter_elems (l : list nat) : rprog (list nat) :=
    match l with
    | [] => RRet []
    | e :: l' =>
        let? b := r_elem_map e to_bool in
        let? r := r_filter_elems l' in
        RRet (if b : bool then e :: r else r)
    end.
  (** /repo/src/iter_shorthands.rs:66-71, concurrent_slice/iter_shorthands.rs:66-71 *)
  Fixpoint r_fold_elems (l : list nat) (init : V) : rprog V :=
    match l with
    | [] => RRet init
    | e :: l' => let? agg := r_elem_map e to_val in r_fold_elems l' agg
    end.
  (** /repo/src/mut_elem.rs:87-89, concurrent_slice/mut_elem.rs:91-93: no element is held while the
      closure runs *)
  Fixpoint r_fill_elems (l : list nat) : rprog unit :=
    match l with
    | [] => RRet tt
    | e :: l' =>
        RClo (fun u =>
          let? v := rchk PClosure (to_val u) in
          let? _ := lift (elem_set e v) in
          r_fill_elems l')
    end.
  (** /repo/src/concurrent_slice/iter_shorthands.rs:92-108 *)
  Definition r_slice_reduce (x : cslice) : rprog (option V) :=
    let? l := lift (slice_iter x) in
    match l with
    | [] => RRet None
    | first :: rest =>
        let? agg := lift (elem_cloned first) in
        let? r := r_fold_elems rest agg in
        RRet (Some r)
    end.

  (** ** Growth *)

  (** /repo/src/grow.rs:154-166: the position is reserved while the closure runs *)
  Definition r_push_for_idx : rprog nat :=
    let? idx := lift (doo (AddResv 1 Relaxed)) in
    RClo (fun u =>
      let? value := rchk PClosure (to_val u) in
      let? _ := lift (single_item_as_ref idx) in
      let? _ := lift (initialize_unchecked idx value) in
      RRet idx).
  (** /repo/src/grow.rs:320-327, 439-446: [next] of the iterator runs before each write *)
  Fixpoint r_write_items (i n : nat) : rprog unit :=
    match n with
    | 0 => RRet tt
    | S n' =>
        RClo (fun u =>
          match u with
          | Some (AVal v) => let? _ := lift (initialize_unchecked i v) in r_write_items (S i) n'
          | Some AEnd => RPan PShortIter
          | _ => RPan PClosure
          end)
    end.
  (** /repo/src/grow.rs:431-449 *)
  Definition r_extend_n_items (num_items : nat) : rprog nat :=
    let? begin_idx := lift (doo (AddResv num_items Relaxed)) in
    let? _ := lift (n_items_buffer E begin_idx num_items) in
    let? _ := r_write_items begin_idx num_items in
    RRet begin_idx.
  (** /repo/src/grow.rs:308-330 *)
  Definition r_extend_for_idx (num_items : nat) : rprog nat :=
    let? begin_idx := lift (doo (AddResv num_items Relaxed)) in
    let? _ := lift (n_items_buffer E begin_idx num_items) in
    RClo (fun u =>
      match u with
      | Some (ALen n) =>
          if n =? num_items then let? _ := r_write_items begin_idx num_items in RRet begin_idx else RPan PIterLen
      | _ => RPan PClosure
      end).

  (** ** Calls.  The closures themselves are not part of the call: what user code does and answers is
      chosen step by step, by the labels of the machine below. *)
  Inductive rop : Type :=
  | RPlain (o : op V)            (* a method without closures, or with closures that make no calls *)
  | RElemMap (i : nat)
  | RElemUpdate (i : nat)
  | RMap
  | RFilter
  | RFold (init : V)
  | RReduce
  | RFillWith
  | RSlMap (x : cslice)
  | RSlFilter (x : cslice)
  | RSlFold (x : cslice) (init : V)
  | RSlReduce (x : cslice)
  | RSlFillWith (x : cslice)
  | RPushFor
  | RExtend (claimed : nat)
  | RExtendFor (n : nat)
  | RExtendN (n : nat).

  Definition rop_prog (o : rop) : rprog (ret V) :=
    match o with
    | RPlain o => lift (op_prog E o)
    | RElemMap i => rmap RVal (r_elem_map i to_val)
    | RElemUpdate i => rmap (fun _ => RUnit) (r_elem_update i)
    | RMap => rmap RVals (let? l := lift vec_iter in r_map_elems l)
    | RFilter => rmap RElems (let? l := lift vec_iter in r_filter_elems l)
    | RFold init => rmap RVal (let? l := lift vec_iter in r_fold_elems l init)
    | RReduce => rmap ROptVal (let? x := lift (vec_as_slice E) in r_slice_reduce x)
    | RFillWith => rmap (fun _ => RUnit) (let? l := lift vec_iter in r_fill_elems l)
    | RSlMap x => rmap RVals (let? l := lift (slice_iter x) in r_map_elems l)
    | RSlFilter x => rmap RElems (let? l := lift (slice_iter x) in r_filter_elems l)
    | RSlFold x init => rmap RVal (let? l := lift (slice_iter x) in r_fold_elems l init)
    | RSlReduce x => rmap ROptVal (r_slice_reduce x)
    | RSlFillWith x => rmap (fun _ => RUnit) (let? l := lift (slice_iter x) in r_fill_elems l)
    | RPushFor => rmap RNat r_push_for_idx
    | RExtend n => rmap RNat (r_extend_n_items n)
    | RExtendFor n => rmap RNat (r_extend_for_idx n)
    | RExtendN n => rmap RNat (r_extend_n_items n)
    end.

  (** ** The call as a call of [Model/Machine.v], once the answers [w] of the user's code are known:
      [w k] is the answer number [k]. *)

  (** the items of an iterator whose [next] answers [w 0], [w 1], ... *)
  Fixpoint items (n : nat) (w : nat -> option ans) : list (option V) :=
    match n with
    | 0 => []
    | S n' =>
        match w 0 with
        | Some (AVal v) => Some v :: items n' (later w)
        | Some AEnd => []
        | _ => [None]
        end
    end.
  Definition with_answers (w : nat -> option ans) (o : rop) : op V :=
    match o with
    | RPlain o => o
    | RElemMap i => OElem i (EMap (fun _ => to_val (w 0)))
    | RElemUpdate i => OElem i (EUpdate (to_write (w 0)))
    | RMap => OMap (fun k _ => to_val (w k))
    | RFilter => OFilter (fun k _ => to_bool (w k))
    | RFold init => OFold init (fun k _ _ => to_val (w k))
    | RReduce => OReduce (fun k _ _ => to_val (w k))
    | RFillWith => OFillWith (fun k => to_val (w k))
    | RSlMap x => OSl x (SMap (fun k _ => to_val (w k)))
    | RSlFilter x => OSl x (SFilter (fun k _ => to_bool (w k)))
    | RSlFold x init => OSl x (SFold init (fun k _ _ => to_val (w k)))
    | RSlReduce x => OSl x (SReduce (fun k _ _ => to_val (w k)))
    | RSlFillWith x => OSl x (SFillWith (fun k => to_val (w k)))
    | RPushFor => OPushFor (fun _ => to_val (w 0))
    | RExtend n => OExtend n (items n w)
    | RExtendFor n => OExtendFor (fun _ => match w 0 with Some (ALen k) => Some (k, items n (later w)) | _ => None end) n
    | RExtendN n => OExtendN (items n w) n
    end.

  (** ** Threads with stacks of calls *)

  (** As [Machine.event]; [d] is the number of suspended calls of the thread below this one. *)
  Inductive revent : Type :=
  | NInv (id t d : nat) (o : rop)
  | NRet (id t d : nat) (r : ret V)
  | NPan (id t d : nat) (m : panic)
  | NAcc (id t d : nat) (a : acc V)
  | NClear
  | NReserve (n m : nat).

  Record frame : Type := Frame { f_id : nat; f_op : rop; f_prog : rprog (ret V) }.

  Record rcfg : Type := RCfg {
    rsh : shared V;
    rrun : list (nat * list frame);        (* threads with unfinished calls, the innermost call first *)
    rhist : list revent;                   (* oldest first *)
    rgiven : list grant;                   (* as [given] *)
    answers : list (nat * option ans)      (* answers of user code: call, answer; oldest first *)
  }.

  (** The accesses of the call with [d] suspended calls below it are those of the "thread" [agent t d]:
      a borrow of an outer call and one of an inner call conflict like those of two threads. *)
  Definition agent (t d : nat) : nat := Cantor.to_nat (t, d).

  Inductive rlabel : Type :=
  | NLInv (t : nat) (o : rop)               (* thread t starts a call, maybe from inside a closure *)
  | NLStep (t : nat)                        (* the innermost call of thread t makes its next access, returns or panics *)
  | NLAns (t : nat) (a : option ans)        (* the closure called by the innermost call of thread t returns or panics *)
  | NLClear
  | NLReserve (n : nat).

  Inductive rstepped : Type :=
  | RNext (c : rcfg)
  | RFault (f : fault)
  | RDisabled.

  (** Can user code run in a thread with stack [s]? *)
  Definition user_turn (s : list frame) : bool :=
    match s with
    | [] => true
    | fr :: _ => match f_prog fr with RClo _ => true | _ => false end
    end.

  Definition rafter (t : nat) (c : rcfg) (fr : frame) (rest : list frame) (p : rprog (ret V)) (s : shared V) (l : list (acc V)) : rcfg :=
    RCfg s (put t (Frame (f_id fr) (f_op fr) p :: rest) (rrun c))
         (rhist c ++ map (NAcc (f_id fr) t (length rest)) l) (rgiven c) (answers c).

  Definition rstep (c : rcfg) (l : rlabel) : rstepped :=
    match l with
    | NLInv t o =>
        let s := stack t (rrun c) in
        if user_turn s && has_grant (with_answers (fun _ => None) o) (rgiven c)
        then RNext (RCfg (rsh c) (put t (Frame (length (rhist c)) o (rop_prog o) :: s) (rrun c))
                         (rhist c ++ [NInv (length (rhist c)) t (length s) o]) (rgiven c) (answers c))
        else RDisabled
    | NLAns t a =>
        match stack t (rrun c) with
        | Frame id o (RClo k) :: rest =>
            RNext (RCfg (rsh c) (put t (Frame id o (k a) :: rest) (rrun c)) (rhist c) (rgiven c) (answers c ++ [(id, a)]))
        | _ => RDisabled
        end
    | NLStep t =>
        match stack t (rrun c) with
        | [] => RDisabled
        | fr :: rest =>
            match f_prog fr with
            | RRet r => RNext (RCfg (rsh c) (put t rest (rrun c)) (rhist c ++ [NRet (f_id fr) t (length rest) r])
                                    (rgiven c ++ grants r) (answers c))
            | RPan m => RNext (RCfg (rsh c) (put t rest (rrun c)) (rhist c ++ [NPan (f_id fr) t (length rest) m])
                                    (rgiven c) (answers c))
            | RAct a k =>
                match exec E (agent t (length rest)) a (rsh c) with
                | Done y s l => RNext (rafter t c fr rest (k y) s l)
                | Bad f => RFault f
                end
            | RSpin a again k =>
                match exec E (agent t (length rest)) a (rsh c) with
                | Done y s l => if again y then RNext c else RNext (rafter t c fr rest (k y) s l)
                | Bad f => RFault f
                end
            | RClo _ => RDisabled
            end
        end
    | NLClear =>
        match rrun c with
        | [] => match clear (rsh c) with
                | XOk s => RNext (RCfg s [] (rhist c ++ [NClear]) [] (answers c))
                | XPanic => RNext c
                | XBad f => RFault f
                end
        | _ => RDisabled
        end
    | NLReserve n =>
        match rrun c with
        | [] => match reserve_maximum_capacity E n (rsh c) with
                | XOk (m, s) => RNext (RCfg s [] (rhist c ++ [NReserve n m]) (rgiven c) (answers c))
                | XPanic => RNext c
                | XBad f => RFault f
                end
        | _ => RDisabled
        end
    end.

  Definition rstart (l : list V) (c m : nat) : rcfg := RCfg (init l c m) [] [] [] [].
End Reentrant.

Global Arguments ans : clear implicits.
Global Arguments rprog : clear implicits.
Global Arguments rop : clear implicits.
Global Arguments revent : clear implicits.
Global Arguments frame : clear implicits.
Global Arguments rcfg : clear implicits.
Global Arguments rlabel : clear implicits.
Global Arguments rstepped : clear implicits.
Global Arguments RRet {V R} r.
Global Arguments RPan {V R} m.
Global Arguments RAct {V R} a k.
Global Arguments RSpin {V R} a again k.
Global Arguments RClo {V R} k.
