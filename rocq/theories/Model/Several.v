(** * Several vectors, and the comparison of two of them.

    [Model/Machine.v] is about one vector.  [==] between vectors, slices and elements
    (/repo/src/common_traits/eq.rs:4-9, 19-29, 45-55) uses two at once.  Here the threads share a family of
    vectors, numbered by [nat]; every access says which vector it goes to. *)

From Coq Require Import List Arith Bool.
From Verif.Model Require Import Prog Mem Deps State Elem Vec Excl Machine Reentrant.
Import ListNotations.

(** How [ConcurrentOption] compares two options (external, the source is not in the repository).  The crate
    offers three ways to get at the value of an option: wait for its handle, as [map], [replace], ... do; try
    to get the handle once; or look without a handle, as [as_ref] does. *)
Inductive eqmode : Type := EqWait | EqTry | EqRef.

Section Several.
  Context {V : Type} (E : env V) (md : eqmode).

  (** Programs as in [Model/Prog.v].  An access goes to vector [w] and is one of [agent t d], where [t] is
      the thread; [d] tells the borrows of the two sides of a comparison apart when both are in one vector. *)
  Inductive mprog (R : Type) : Type :=
  | QRet (r : R)
  | QPan (m : panic)
  | QAct (w d : nat) (a : act V) (k : res a -> mprog R)
  | QSpin (w d : nat) (a : act V) (again : res a -> bool) (k : res a -> mprog R).
  Arguments QRet {R} r.
  Arguments QPan {R} m.
  Arguments QAct {R} w d a k.
  Arguments QSpin {R} w d a again k.

  Fixpoint qbind {A B : Type} (p : mprog A) (f : A -> mprog B) : mprog B :=
    match p with
    | QRet r => f r
    | QPan m => QPan m
    | QAct w d a k => QAct w d a (fun x => qbind (k x) f)
    | QSpin w d a again k => QSpin w d a again (fun x => qbind (k x) f)
    end.
  (** a method of vector [w] *)
  Fixpoint on (w : nat) {R : Type} (p : prog V R) : mprog R :=
    match p with
    | Ret r => QRet r
    | Pan m => QPan m
    | Act a k => QAct w 0 a (fun x => on w (k x))
    | Spin a again k => QSpin w 0 a again (fun x => on w (k x))
    end.
  Local Notation "'let+' x := p 'in' q" := (qbind p (fun x => q)) (at level 200, x pattern, p at level 100, q at level 200).
  Definition qdo (w d : nat) (a : act V) : mprog (res a) := QAct w d a (fun x => QRet x).

  (** ** The handle of element [i] of vector [w] *)
  Definition q_wait (w d i : nat) : mprog bool :=
    QSpin w d (CasSt i SOME RESERVED) (fun r => negb (fst r) && st_eqb (snd r) RESERVED) (fun r => QRet (fst r)).
  Definition q_try (w d i : nat) : mprog bool :=
    QAct w d (CasSt i SOME RESERVED) (fun r => QRet (fst r)).
  Definition q_look (w d i : nat) : mprog bool :=
    QAct w d (LoadSt i SeqCst) (fun r => QRet (st_eqb r SOME)).
  Definition q_get (w d i : nat) : mprog bool :=
    match md with EqWait => q_wait w d i | EqTry => q_try w d i | EqRef => q_look w d i end.
  Definition q_drop (w d i : nat) : mprog unit :=
    match md with EqRef => QRet tt | _ => qdo w d (StoreSt i SOME) end.

  (** [ConcurrentOption == ConcurrentOption] (/repo/src/common_traits/eq.rs:7), element [i] of [w] with element
      [j] of [w']: the left value is borrowed, then the right one; they are compared; the right one is given
      back, then the left one.  An option without a value is not modelled beyond the answer [false]. *)
  Definition second (w w' : nat) : nat := if w =? w' then 1 else 0.
  Definition option_eq (w i w' j : nat) : mprog bool :=
    let d := second w w' in
    let+ h := q_get w 0 i in
    if h : bool then
      let+ _ := qdo w 0 (RdBeg i) in
      let+ h' := q_get w' d j in
      if h' : bool then
        let+ _ := qdo w' d (RdBeg j) in
        let+ y := qdo w' d (RdEnd j) in
        let+ _ := q_drop w' d j in
        let+ x := qdo w 0 (RdEnd i) in
        let+ _ := q_drop w 0 i in
        QRet (eqv E x y)
      else
        let+ _ := qdo w 0 (RdEnd i) in
        let+ _ := q_drop w 0 i in
        QRet false
    else QRet false.

  (** /repo/src/common_traits/eq.rs:71-84 [eq_elem_iters] *)
  Fixpoint eq_elem_iters (w w' : nat) (l l' : list nat) : mprog bool :=
    match l, l' with
    | i :: l1, j :: l1' =>
        let+ b := option_eq w i w' j in
        if b : bool then eq_elem_iters w w' l1 l1' else QRet false
    | [], [] => QRet true
    | _, _ => QRet false
    end.

  (** A side of a comparison: a vector, or a slice of one. *)
  Inductive operand : Type := Whole (w : nat) | Part (w : nat) (x : cslice).
  Definition vec_of (a : operand) : nat := match a with Whole w | Part w _ => w end.
  (** [iter()] of that side *)
  Definition side_iter (a : operand) : mprog (list nat) :=
    match a with Whole w => on w vec_iter | Part w x => on w (slice_iter x) end.

  (** /repo/src/common_traits/eq.rs:19-23, 25-29, 45-49, 51-55 *)
  Definition side_eq (a b : operand) : mprog bool :=
    let+ l := side_iter a in
    let+ l' := side_iter b in
    eq_elem_iters (vec_of a) (vec_of b) l l'.

  (** ** Calls *)
  Inductive mop : Type :=
  | MOp (w : nat) (o : op V)                 (* a method of vector [w], or of its slices and elements *)
  | MEq (a b : operand)                      (* [a == b] *)
  | MEqElem (w i w' j : nat).                (* element [i] of [w] [==] element [j] of [w'], eq.rs:4-9 *)

  Definition mop_prog (o : mop) : mprog (ret V) :=
    match o with
    | MOp w o => on w (op_prog E o)
    | MEq a b => let+ r := side_eq a b in QRet (RBool r)
    | MEqElem w i w' j => let+ r := option_eq w i w' j in QRet (RBool r)
    end.

  (** The references a call needs: vector, reference. *)
  Definition side_needs (a : operand) : list (nat * grant) :=
    match a with Whole _ => [] | Part w x => [(w, GSlice x)] end.
  Definition mneeds (o : mop) : list (nat * grant) :=
    match o with
    | MOp w o => match needs o with Some g => [(w, g)] | None => [] end
    | MEq a b => side_needs a ++ side_needs b
    | MEqElem w i w' j => [(w, GElem i); (w', GElem j)]
    end.
  Definition mgrants (o : mop) (r : ret V) : list (nat * grant) :=
    match o with MOp w _ => map (pair w) (grants r) | _ => [] end.

  (** ** The machine *)
  Inductive mevent : Type :=
  | MInv (id t : nat) (o : mop)
  | MRet (id t : nat) (r : ret V)
  | MPan (id t : nat) (m : panic)
  | MAcc (id t w d : nat) (a : acc V).

  Record mcall : Type := MCall { m_id : nat; m_op : mop; m_prog : mprog (ret V) }.

  Record mcfg : Type := MCfg {
    msh : nat -> shared V;
    mrun : nat -> option mcall;            (* the unfinished call of each thread *)
    mhist : list mevent;                   (* oldest first *)
    mgiven : list (nat * grant)            (* references handed out: vector, reference *)
  }.

  Inductive mlabel : Type :=
  | MLInv (t : nat) (o : mop)              (* thread t starts a call *)
  | MLStep (t : nat).                      (* thread t makes its next access, returns or panics *)

  Inductive mstepped : Type :=
  | MNext (c : mcfg)
  | MFault (f : fault)
  | MDisabled.

  Definition mgrant_eqb (x y : nat * grant) : bool := (fst x =? fst y) && grant_eqb (snd x) (snd y).
  Definition mhas (l : list (nat * grant)) (o : mop) : bool :=
    forallb (fun g => existsb (mgrant_eqb g) l) (mneeds o).

  Definition mafter (t : nat) (c : mcfg) (x : mcall) (p : mprog (ret V)) (w d : nat) (s : shared V) (l : list (acc V)) : mcfg :=
    MCfg (upd (msh c) w s) (upd (mrun c) t (Some (MCall (m_id x) (m_op x) p)))
         (mhist c ++ map (MAcc (m_id x) t w d) l) (mgiven c).

  Definition mstep (c : mcfg) (l : mlabel) : mstepped :=
    match l with
    | MLInv t o =>
        match mrun c t with
        | Some _ => MDisabled
        | None =>
            if mhas (mgiven c) o
            then MNext (MCfg (msh c) (upd (mrun c) t (Some (MCall (length (mhist c)) o (mop_prog o))))
                             (mhist c ++ [MInv (length (mhist c)) t o]) (mgiven c))
            else MDisabled
        end
    | MLStep t =>
        match mrun c t with
        | None => MDisabled
        | Some x =>
            match m_prog x with
            | QRet r => MNext (MCfg (msh c) (upd (mrun c) t None) (mhist c ++ [MRet (m_id x) t r])
                                    (mgiven c ++ mgrants (m_op x) r))
            | QPan m => MNext (MCfg (msh c) (upd (mrun c) t None) (mhist c ++ [MPan (m_id x) t m]) (mgiven c))
            | QAct w d a k =>
                match exec E (agent t d) a (msh c w) with
                | Done y s l => MNext (mafter t c x (k y) w d s l)
                | Bad f => MFault f
                end
            | QSpin w d a again k =>
                match exec E (agent t d) a (msh c w) with
                | Done y s l => if again y then MNext c else MNext (mafter t c x (k y) w d s l)
                | Bad f => MFault f
                end
            end
        end
    end.

  (** Vectors that were just created: vector [w] has elements [l0 w], capacity [c0 w], maximum capacity [m0 w]. *)
  Definition mstart (l0 : nat -> list V) (c0 m0 : nat -> nat) : mcfg :=
    MCfg (fun w => init (l0 w) (c0 w) (m0 w)) (fun _ => None) [] [].
End Several.

Global Arguments mprog : clear implicits.
Global Arguments mop : clear implicits.
Global Arguments mevent : clear implicits.
Global Arguments mcall : clear implicits.
Global Arguments mcfg : clear implicits.
Global Arguments mlabel : clear implicits.
Global Arguments mstepped : clear implicits.
Global Arguments QRet {V R} r.
Global Arguments QPan {V R} m.
Global Arguments QAct {V R} w d a k.
Global Arguments QSpin {V R} w d a again k.
