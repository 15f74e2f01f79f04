(** * Closures that call back into the vector, under release/acquire.

    The programs are those of [Model/Reentrant.v], the memory is that of [Weak.v].  A thread has a stack
    of suspended calls.  What a thread knows is kept per depth: [q_view (agent t d)] is the knowledge of
    the call of thread [t] with [d] suspended calls below it.  A call made in a closure starts with what
    the suspended call knows, and when it ends the suspended call knows what it has learned: together
    this is the one growing view of a thread. *)

From Coq Require Import List Arith Bool.
From Verif.Model Require Import Prog Mem Deps State Elem Vec Excl Machine Reentrant.
From Verif Require Import Client Nested.
From Verif.RA Require Import Weak WTrace.
Import ListNotations.

Section Machine.
  Context {V : Type} (E : env V).

  (** An unfinished call.  [k_num]: its number (as [wc_id]); [k_id]: the position of its first event in
      the history (as [f_id]); [k_from]: what its thread knew when it started. *)
  Record qframe : Type := QFrame { k_num : nat; k_id : nat; k_op : rop V; k_from : view; k_prog : rprog V (ret V) }.
  (** A call that returned, as [wresult]; [p_thread]: its thread; [p_id], [p_end]: the positions of its first and
      last event. *)
  Record qresult : Type := QRes { p_num : nat; p_thread : nat; p_id : nat; p_end : nat; p_op : rop V; p_from : view; p_ret : ret V; p_to : view }.
  Record qcfg : Type := QCfg {
    q_mem : wmem V;
    q_view : nat -> view;                            (* of each thread and depth *)
    q_run : list (nat * list qframe);                (* threads with unfinished calls, the innermost call first *)
    q_next : nat;                                    (* number of the next call *)
    q_res : list qresult;                            (* calls that returned since the last clear *)
    q_panics : list (nat * nat * rop V * panic);     (* calls that panicked since the last clear: number, first event *)
    q_req : nat;                                     (* as [w_req] *)
    q_hist : list (revent V);                        (* oldest first *)
    q_ans : list (nat * option (ans V))              (* answers of user code: first event of the call, answer *)
  }.

  Inductive qlabel : Type :=
  | QInv (t : nat) (o : rop V) (from : nat)          (* thread t starts a call, maybe in a closure, with the reference handed out by result [from] *)
  | QStep (t : nat) (k : nat)                        (* the innermost call of t makes its next access, returns or panics; k: message read by a load *)
  | QAns (t : nat) (a : option (ans V))              (* the closure called by the innermost call of t returns or panics *)
  | QSync (t u : nat)                                (* user code of t, maybe a closure, synchronises with u outside of the vector *)
  | QClear
  | QReserve (n : nat).

  Inductive qstepped : Type :=
  | QNext (c : qcfg)
  | QFault (f : wfault)
  | QDisabled.

  Definition turn (s : list qframe) : bool :=
    match s with
    | [] => true
    | fr :: _ => match k_prog fr with RClo _ => true | _ => false end
    end.
  (** whose knowledge is that of thread [t]: its innermost call, or nothing of it runs *)
  Definition holder (t : nat) (c : qcfg) : nat := agent t (pred (length (stack t (q_run c)))).

  Definition learn (f : nat -> view) (a b : nat) : nat -> view := upd f a (vjoin (f a) (f b)).
  (** depth [d] of thread [t] is entered from the depth below, and left *)
  Definition enter (f : nat -> view) (t d : nat) : nat -> view :=
    match d with 0 => f | S d' => learn f (agent t d) (agent t d') end.
  Definition leave (f : nat -> view) (t d : nat) : nat -> view :=
    match d with 0 => f | S d' => learn f (agent t d') (agent t d) end.

  Definition qfetch (o : rop V) (from : nat) (l : list qresult) : option view :=
    match needs (with_answers (fun _ => None) o) with
    | None => Some vbot
    | Some g => match nth_error l from with
                | Some x => if existsb (grant_eqb g) (grants (p_ret x)) then Some (p_to x) else None
                | None => None
                end
    end.

  Definition qafter (t : nat) (c : qcfg) (fr : qframe) (rest : list qframe) (p : rprog V (ret V)) (M : wmem V) (tv : view) (l : list (acc V)) : qcfg :=
    QCfg M (upd (q_view c) (agent t (length rest)) tv)
         (put t (QFrame (k_num fr) (k_id fr) (k_op fr) (k_from fr) p :: rest) (q_run c)) (q_next c) (q_res c) (q_panics c) (q_req c)
         (q_hist c ++ map (NAcc (k_id fr) t (length rest)) l) (q_ans c).

  Definition qstep (c : qcfg) (l : qlabel) : qstepped :=
    match l with
    | QInv t o from =>
        let s := stack t (q_run c) in
        let d := length s in
        if turn s then
          match qfetch o from (q_res c) with
          | Some x =>
              let f := enter (q_view c) t d in
              let tv := vjoin (f (agent t d)) x in
              QNext (QCfg (q_mem c) (upd f (agent t d) tv)
                          (put t (QFrame (q_next c) (length (q_hist c)) o tv (rop_prog E o) :: s) (q_run c)) (S (q_next c))
                          (q_res c) (q_panics c) (q_req c + request (with_answers (fun _ => None) o))
                          (q_hist c ++ [NInv (length (q_hist c)) t d o]) (q_ans c))
          | None => QDisabled
          end
        else QDisabled
    | QAns t a =>
        match stack t (q_run c) with
        | QFrame n id o from (RClo k) :: rest =>
            QNext (QCfg (q_mem c) (q_view c) (put t (QFrame n id o from (k a) :: rest) (q_run c)) (q_next c) (q_res c) (q_panics c)
                        (q_req c) (q_hist c) (q_ans c ++ [(id, a)]))
        | _ => QDisabled
        end
    | QSync t u =>
        if turn (stack t (q_run c))
        then QNext (QCfg (q_mem c) (learn (q_view c) (holder t c) (holder u c)) (q_run c) (q_next c) (q_res c) (q_panics c)
                         (q_req c) (q_hist c) (q_ans c))
        else QDisabled
    | QStep t k =>
        match stack t (q_run c) with
        | [] => QDisabled
        | fr :: rest =>
            let d := length rest in
            let tv := q_view c (agent t d) in
            match k_prog fr with
            | RRet r =>
                QNext (QCfg (q_mem c) (leave (q_view c) t d) (put t rest (q_run c)) (q_next c)
                            (q_res c ++ [QRes (k_num fr) t (k_id fr) (length (q_hist c)) (k_op fr) (k_from fr) r tv]) (q_panics c) (q_req c)
                            (q_hist c ++ [NRet (k_id fr) t d r]) (q_ans c))
            | RPan m =>
                QNext (QCfg (q_mem c) (leave (q_view c) t d) (put t rest (q_run c)) (q_next c)
                            (q_res c) (q_panics c ++ [(k_num fr, k_id fr, k_op fr, m)]) (q_req c)
                            (q_hist c ++ [NPan (k_id fr) t d m]) (q_ans c))
            | RAct a kk =>
                match wexec E (k_num fr) a k (q_mem c) tv with
                | WDone y M tv' => QNext (qafter t c fr rest (kk y) M tv' (wlog (q_mem c) a y))
                | WBad f => QFault f
                | WNone => QDisabled
                end
            | RSpin a again kk =>
                match wexec E (k_num fr) a k (q_mem c) tv with
                | WDone y M tv' => if again y then QNext c else QNext (qafter t c fr rest (kk y) M tv' (wlog (q_mem c) a y))
                | WBad f => QFault f
                | WNone => QDisabled
                end
            | RClo _ => QDisabled
            end
        end
    | QClear =>
        match q_run c with
        | [] => if latest (m_resv (q_mem c)) <=? latest (m_cap (q_mem c))
                then QNext (QCfg (winit [] (latest (m_cap (q_mem c))) (m_max (q_mem c))) (fun _ => vbot) [] (q_next c) [] [] 0
                                 (q_hist c ++ [NClear]) (q_ans c))
                else QFault (WF FOob)
        | _ => QDisabled
        end
    | QReserve n =>
        match q_run c with
        | [] => match reserve E (latest (m_cap (q_mem c))) (m_max (q_mem c)) n with
                | Some m => let M := q_mem c in
                    QNext (QCfg (WMem (m_resv M) (m_wrtn M) (m_cap M) m None (m_slots M)) (q_view c) [] (q_next c) (q_res c) (q_panics c)
                                (q_req c) (q_hist c ++ [NReserve n m]) (q_ans c))
                | None => QNext c
                end
        | _ => QDisabled
        end
    end.

  Definition qstart (l : list V) (c m : nat) : qcfg :=
    let w := wstart l c m in QCfg (w_mem w) (w_view w) [] (w_next w) [] [] (w_req w) [] [].

  (** ** The discipline, as [wclient] and [wexecution] *)
  Definition qclient (ro : bool) (c : qcfg) (l : qlabel) : Prop :=
    match l with
    | QInv _ o _ => let o := with_answers (fun _ => None) o in allowed E ro false o /\ q_req c + request o < wmod E
    | QClear => forall n id o m, In (n, id, o, m) (q_panics c) -> ~ overran (with_answers (fun _ => None) o) m
    | _ => True
    end.
  (** The same, without [clear]. *)
  Definition calm (ro : bool) (c : qcfg) (l : qlabel) : Prop := qclient ro c l /\ l <> QClear.
  Inductive qreach (P : qcfg -> qlabel -> Prop) (c0 : qcfg) : qcfg -> Prop :=
  | qreach_start : qreach P c0 c0
  | qreach_step c l c' : qreach P c0 c -> P c l -> qstep c l = QNext c' -> qreach P c0 c'.
  Definition qexecution (ro : bool) (l0 : list V) (c0 m0 : nat) (c : qcfg) : Prop :=
    env_ok E /\ capok E c0 m0 /\ length l0 <= c0 /\ length l0 < wmod E /\ qreach (qclient ro) (qstart l0 c0 m0) c.

  (** ** The same without nesting: every depth of a thread is a thread of its own, the closures are
      functions that gave the answers [w] *)
  Definition flat_res (w : nat -> nat -> option (ans V)) (x : qresult) : wresult V :=
    WRes (p_num x) (with_answers (w (p_id x)) (p_op x)) (p_from x) (p_ret x) (p_to x).
  Definition flat_pan (w : nat -> nat -> option (ans V)) (x : nat * nat * rop V * panic) : nat * op V * panic :=
    match x with (n, id, o, m) => (n, with_answers (w id) o, m) end.
  Definition qflatten (c : qcfg) : list (event V) := map (flat_event (answered (q_ans c))) (q_hist c).
  Definition qresults (c : qcfg) : list (wresult V) := map (flat_res (answered (q_ans c))) (q_res c).
End Machine.

Global Arguments qframe : clear implicits.
Global Arguments qresult : clear implicits.
Global Arguments qcfg : clear implicits.
Global Arguments qlabel : clear implicits.
Global Arguments qstepped : clear implicits.
