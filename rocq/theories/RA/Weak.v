(** * A release/acquire view machine for the same programs.

    [Model/Machine.v] interprets the atomic accesses one after the other, every load seeing the
    latest store, and ignores the [Ordering] arguments of the code.  Here every atomic location has
    the list of all messages (stores) it ever received, every thread has a view (the newest message of
    each location it must have seen), and a load may read any message that is not older than the view:
    relaxed loads may be stale.  Only release/acquire pairs transfer views between threads.  This is
    the usual operational (view based) formulation of the C++20/Rust memory model without the
    out-of-thin-air behaviours of relaxed accesses ("promise free"). *)

From Coq Require Import List Arith Bool.
From Verif.Model Require Import Prog Mem Deps State Elem Vec Excl Machine.
From Verif Require Import Client.
Import ListNotations.

(** For each location the position in its message list; for the value of each element (plain memory)
    the number of writes and the set of reads that happened before. *)
Record view : Type := View {
  v_resv : nat;
  v_wrtn : nat;
  v_cap : nat;
  v_st : nat -> nat;
  v_w : nat -> nat;
  v_r : nat -> nat -> bool
}.
Definition vbot : view := View 0 0 0 (fun _ => 0) (fun _ => 0) (fun _ _ => false).
Definition vjoin (x y : view) : view :=
  View (Nat.max (v_resv x) (v_resv y)) (Nat.max (v_wrtn x) (v_wrtn y)) (Nat.max (v_cap x) (v_cap y))
       (fun i => Nat.max (v_st x i) (v_st y i)) (fun i => Nat.max (v_w x i) (v_w y i))
       (fun i r => v_r x i r || v_r y i r).
(** [x] knows no more than [y] *)
Definition vle (x y : view) : Prop :=
  v_resv x <= v_resv y /\ v_wrtn x <= v_wrtn y /\ v_cap x <= v_cap y /\
  (forall i, v_st x i <= v_st y i) /\ (forall i, v_w x i <= v_w y i) /\ (forall i r, v_r x i r = true -> v_r y i r = true).
Definition set_resv k x := View k (v_wrtn x) (v_cap x) (v_st x) (v_w x) (v_r x).
Definition set_wrtn k x := View (v_resv x) k (v_cap x) (v_st x) (v_w x) (v_r x).
Definition set_cap k x := View (v_resv x) (v_wrtn x) k (v_st x) (v_w x) (v_r x).
Definition set_st i k x := View (v_resv x) (v_wrtn x) (v_cap x) (upd (v_st x) i k) (v_w x) (v_r x).
Definition set_w i k x := View (v_resv x) (v_wrtn x) (v_cap x) (v_st x) (upd (v_w x) i k) (v_r x).
Definition add_r i r x :=
  View (v_resv x) (v_wrtn x) (v_cap x) (v_st x) (v_w x) (upd (v_r x) i (fun q => (q =? r) || v_r x i q)).

(** One store: its value, the view it releases, whether it belongs to a read-modify-write (which read
    the message right before it), and the call that made it. *)
Record msg (A : Type) : Type := Msg { mval : A; mview : view; mrmw : bool; mby : nat }.
Arguments Msg {A}.
Arguments mval {A}.
Arguments mview {A}.
Arguments mrmw {A}.
Arguments mby {A}.

(** One element: messages of the state byte, number of writes and reads of the value, the value. *)
Record wslot (V : Type) : Type := WSlot { ws : list (msg st); ww : nat; wr : nat; wv : option V }.
Arguments WSlot {V}.
Arguments ws {V}.
Arguments ww {V}.
Arguments wr {V}.
Arguments wv {V}.

Record wmem (V : Type) : Type := WMem {
  m_resv : list (msg nat);     (* len_reserved *)
  m_wrtn : list (msg nat);     (* len_written *)
  m_cap : list (msg nat);      (* capacity *)
  m_max : nat;                 (* maximum capacity; changed by &mut methods only *)
  m_grow : option nat;         (* call inside grow_to *)
  m_slots : nat -> wslot V
}.
Arguments WMem {V}.
Arguments m_resv {V}.
Arguments m_wrtn {V}.
Arguments m_cap {V}.
Arguments m_max {V}.
Arguments m_grow {V}.
Arguments m_slots {V}.

(** [FOrder]: a plain store or a read-modify-write could take a place in the modification order
    before an existing store, or growth starts from an outdated capacity.  The machine stops there; it
    is proved never to happen, so appending stores at the end is no restriction. *)
Inductive wfault : Type := WF (f : fault) | FOrder.
Inductive wout (V A : Type) : Type :=
| WDone (x : A) (m : wmem V) (tv : view)
| WBad (f : wfault)
| WNone.                       (* no such message to read *)
Arguments WDone {V A}.
Arguments WBad {V A}.
Arguments WNone {V A}.

Definition acquires (o : ord) : bool := match o with Acquire | AcqRel | SeqCst => true | _ => false end.
Definition releases (o : ord) : bool := match o with Release | AcqRel | SeqCst => true | _ => false end.

Section Weak.
  Context {V : Type} (E : env V).
  Notation wmem := (wmem V).
  Notation wslot := (wslot V).

  Definition last_ts {A} (l : list (msg A)) : nat := length l - 1.
  Definition latest (l : list (msg nat)) : nat := match nth_error l (last_ts l) with Some m => mval m | None => 0 end.
  Definition acq (o : ord) {A} (m : msg A) (tv : view) : view := if acquires o then vjoin tv (mview m) else tv.
  (** view released by a read-modify-write that reads [m]: it continues the release sequence of [m] *)
  Definition rel (o : ord) {A} (m : msg A) (tv : view) : view := if releases o then vjoin (mview m) tv else mview m.

  (** the capacity the thread knows of: elements below it were allocated before *)
  Definition capv (M : wmem) (tv : view) : nat :=
    match nth_error (m_cap M) (v_cap tv) with Some m => mval m | None => 0 end.
  Definition put_slot (M : wmem) (i : nat) (x : wslot) : wmem :=
    WMem (m_resv M) (m_wrtn M) (m_cap M) (m_max M) (m_grow M) (upd (m_slots M) i x).
  Definition with_wslot {A} (M : wmem) (tv : view) (i : nat) (k : wslot -> wout V A) : wout V A :=
    if i <? capv M tv then k (m_slots M i) else WBad (WF FOob).

  (** plain accesses: the writes (and, for a write, the reads) made so far must have happened before *)
  Definition may_read (tv : view) (i : nat) (x : wslot) : bool := v_w tv i =? ww x.
  Definition may_write (tv : view) (i : nat) (x : wslot) : bool :=
    (v_w tv i =? ww x) && forallb (fun r => v_r tv i r) (seq 0 (wr x)).
  Definition wfresh : wslot := WSlot [Msg NONE vbot false 0] 0 0 None.
  Definition wfilled (v : V) : wslot := WSlot [Msg SOME vbot false 0] 0 0 (Some v).

  (** Access [a] by call [id]; [k] selects the message that a load reads. *)
  Definition wexec (id : nat) (a : act V) (k : nat) (M : wmem) (tv : view) : wout V (res a) :=
    match a return wout V (res a) with
    | LoadResv o =>
        match nth_error (m_resv M) k with
        | Some m => if v_resv tv <=? k then WDone (mval m) M (acq o m (set_resv k tv)) else WNone
        | None => WNone
        end
    | AddResv n o =>                        (* only RMWs write this location: reads the last message *)
        match nth_error (m_resv M) (last_ts (m_resv M)) with
        | Some m =>
            let tv' := acq o m (set_resv (length (m_resv M)) tv) in
            WDone (mval m)
                  (WMem (m_resv M ++ [Msg ((mval m + n) mod wmod E) (rel o m tv') true id])
                        (m_wrtn M) (m_cap M) (m_max M) (m_grow M) (m_slots M)) tv'
        | None => WNone
        end
    | LoadWrtn o =>
        match nth_error (m_wrtn M) k with
        | Some m => if v_wrtn tv <=? k then WDone (mval m) M (acq o m (set_wrtn k tv)) else WNone
        | None => WNone
        end
    | MaxWrtn n o =>                        (* only RMWs write this location *)
        match nth_error (m_wrtn M) (last_ts (m_wrtn M)) with
        | Some m =>
            let tv' := acq o m (set_wrtn (length (m_wrtn M)) tv) in
            WDone (mval m)
                  (WMem (m_resv M) (m_wrtn M ++ [Msg (Nat.max (mval m) n) (rel o m tv') true id])
                        (m_cap M) (m_max M) (m_grow M) (m_slots M)) tv'
        | None => WNone
        end
    | LoadCap =>                            (* external: Acquire *)
        match nth_error (m_cap M) k with
        | Some m => if v_cap tv <=? k then WDone (mval m) M (acq Acquire m (set_cap k tv)) else WNone
        | None => WNone
        end
    | LoadMax => WDone (m_max M) M tv
    | LoadSt i o => with_wslot M tv i (fun x =>
        match nth_error (ws x) k with
        | Some m => if v_st tv i <=? k then WDone (mval m) M (acq o m (set_st i k tv)) else WNone
        | None => WNone
        end)
    | CasSt i e n => with_wslot M tv i (fun x =>    (* success Acquire, failure Relaxed *)
        match nth_error (ws x) k with
        | Some m =>
            if v_st tv i <=? k then
              if st_eqb (mval m) e then
                match nth_error (ws x) (S k) with
                | None => WDone (true, mval m)
                            (put_slot M i (WSlot (ws x ++ [Msg n (mview m) true id]) (ww x) (wr x) (wv x)))
                            (acq Acquire m (set_st i (S k) tv))
                | Some m' => if mrmw m' then WNone else WBad FOrder
                end
              else WDone (false, mval m) M (set_st i k tv)
            else WNone
        | None => WNone
        end)
    | StoreSt i n => with_wslot M tv i (fun x =>    (* Release *)
        if v_st tv i =? last_ts (ws x) then
          match nth_error (ws x) (last_ts (ws x)), wv x with
          | Some m, None => if st_eqb (mval m) NONE && st_eqb n SOME then WBad (WF FUninit) else
              let tv' := set_st i (length (ws x)) tv in
              WDone tt (put_slot M i (WSlot (ws x ++ [Msg n tv' false id]) (ww x) (wr x) (wv x))) tv'
          | Some m, Some _ =>
              let tv' := set_st i (length (ws x)) tv in
              WDone tt (put_slot M i (WSlot (ws x ++ [Msg n tv' false id]) (ww x) (wr x) (wv x))) tv'
          | None, _ => WNone
          end
        else WBad FOrder)
    | RdBeg i => with_wslot M tv i (fun x =>
        if may_read tv i x then WDone tt M tv else WBad (WF FRace))
    | RdEnd i => with_wslot M tv i (fun x =>
        if may_read tv i x then
          match wv x with
          | Some v => WDone v (put_slot M i (WSlot (ws x) (ww x) (S (wr x)) (wv x))) (add_r i (wr x) tv)
          | None => WBad (WF FUninit)
          end
        else WBad (WF FRace))
    | WrBeg i => with_wslot M tv i (fun x =>
        if may_write tv i x then WDone tt M tv else WBad (WF FRace))
    | WrEnd i f => with_wslot M tv i (fun x =>
        if may_write tv i x then
          match wv x with
          | Some v => WDone v (put_slot M i (WSlot (ws x) (S (ww x)) (wr x) (Some (f v)))) (set_w i (S (ww x)) tv)
          | None => WBad (WF FUninit)
          end
        else WBad (WF FRace))
    | SwapEnd i j => with_wslot M tv i (fun x => with_wslot M tv j (fun y =>
        if may_write tv i x && may_write tv j y && negb (i =? j) then
          match wv x, wv y with
          | Some v, Some w =>
              WDone tt (put_slot (put_slot M i (WSlot (ws x) (S (ww x)) (wr x) (Some w)))
                                 j (WSlot (ws y) (S (ww y)) (wr y) (Some v)))
                    (set_w j (S (ww y)) (set_w i (S (ww x)) tv))
          | _, _ => WBad (WF FUninit)
          end
        else WBad (WF FRace)))
    | InitBeg i => with_wslot M tv i (fun x =>
        match nth_error (ws x) (last_ts (ws x)) with
        | Some m => if st_eqb (mval m) NONE then
                      if may_write tv i x then WDone tt M tv else WBad (WF FRace)
                    else WBad (WF FReinit)
        | None => WNone
        end)
    | InitEnd i v => with_wslot M tv i (fun x =>
        if may_write tv i x
        then WDone tt (put_slot M i (WSlot (ws x) (S (ww x)) (wr x) (Some v))) (set_w i (S (ww x)) tv)
        else WBad (WF FRace))
    | IterRange a b => if (a <=? b) && (b <=? capv M tv) then WDone tt M tv else WBad (WF FRange)
    | GrowBeg n =>
        match m_grow M with
        | Some _ => WBad (WF FRace)
        | None =>
            if v_cap tv =? last_ts (m_cap M) then
              match policy E (capv M tv) (m_max M) n with
              | Some _ => WDone true (WMem (m_resv M) (m_wrtn M) (m_cap M) (m_max M) (Some id) (m_slots M)) tv
              | None => WDone false M tv
              end
            else WBad FOrder
        end
    | GrowEnd n =>                          (* external: Release store of the new capacity *)
        if is_tid (m_grow M) id then
          if v_cap tv =? last_ts (m_cap M) then
            match policy E (capv M tv) (m_max M) n with
            | Some c =>
                let tv' := set_cap (length (m_cap M)) tv in
                WDone tt (WMem (m_resv M) (m_wrtn M) (m_cap M ++ [Msg c tv' false id]) (m_max M) None
                               (fun j => if (capv M tv <=? j) && (j <? c) then wfresh else m_slots M j)) tv'
            | None => WBad (WF FOob)
            end
          else WBad FOrder
        else WBad (WF FRace)
    end.

  (** ** Configurations.  A call is identified by a number. *)
  Record wcall : Type := WCall { wc_id : nat; wc_op : op V; wc_from : view; wc_prog : prog V (ret V) }.
  (** A call that returned: view of the thread when it started and when it returned.  Call [x]
      happened before call [y] if [r_to x] is included in [r_from y]. *)
  Record wresult : Type := WRes { r_id : nat; r_op : op V; r_from : view; r_ret : ret V; r_to : view }.
  Record wcfg : Type := WCfg {
    w_mem : wmem;
    w_view : nat -> view;                            (* view of each thread *)
    w_run : list (nat * wcall);                      (* threads with an unfinished call *)
    w_next : nat;                                    (* number of the next call *)
    w_res : list wresult;                            (* calls that returned since the last clear *)
    w_panics : list (nat * op V * panic);               (* calls that panicked since the last clear *)
    w_req : nat                                      (* positions asked for since the last clear, with the initial elements *)
  }.

  Fixpoint wlookup (t : nat) (l : list (nat * wcall)) : option wcall :=
    match l with
    | [] => None
    | (u, c) :: l' => if t =? u then Some c else wlookup t l'
    end.
  Fixpoint wremove (t : nat) (l : list (nat * wcall)) : list (nat * wcall) :=
    match l with
    | [] => []
    | (u, c) :: l' => if t =? u then l' else (u, c) :: wremove t l'
    end.

  Inductive wlabel : Type :=
  | WInv (t : nat) (o : op V) (from : nat)   (* thread t starts a call, with the reference handed out by result [from] *)
  | WStep (t : nat) (k : nat)                (* thread t makes its next access; k: message read by a load *)
  | WSync (t u : nat)                        (* t, between two calls or in a closure of a call, synchronises with u outside of the vector (mutex, channel, join, ...) *)
  | WClear
  | WReserve (n : nat).

  Inductive wstepped : Type :=
  | WNext (c : wcfg)
  | WFault (f : wfault)
  | WDisabled.

  (** A reference travels together with the view of the thread that got it: handing it to another
      thread is a synchronisation. *)
  Definition fetch (o : op V) (from : nat) (l : list wresult) : option view :=
    match needs o with
    | None => Some vbot
    | Some g => match nth_error l from with
                | Some x => if existsb (grant_eqb g) (grants (r_ret x)) then Some (r_to x) else None
                | None => None
                end
    end.

  Definition winit (l : list V) (c m : nat) : wmem :=
    WMem [Msg (length l) vbot true 0] [Msg (length l) vbot true 0] [Msg c vbot false 0] m None
         (fun i => match nth_error l i with Some v => wfilled v | None => wfresh end).
  Definition wstart (l : list V) (c m : nat) : wcfg := WCfg (winit l c m) (fun _ => vbot) [] 1 [] [] (length l).

  Definition wafter (t : nat) (c : wcfg) (x : wcall) (p : prog V (ret V)) (M : wmem) (tv : view) : wcfg :=
    WCfg M (upd (w_view c) t tv) ((t, WCall (wc_id x) (wc_op x) (wc_from x) p) :: wremove t (w_run c)) (w_next c) (w_res c) (w_panics c) (w_req c).

  (** A busy-waiting read that stays in the loop leaves everything as it is: not even the view is
      updated, which allows more behaviours. *)
  Definition wstep_thread (t k : nat) (c : wcfg) : wstepped :=
    match wlookup t (w_run c) with
    | None => WDisabled
    | Some x =>
        match wc_prog x with
        | Ret r => WNext (WCfg (w_mem c) (w_view c) (wremove t (w_run c)) (w_next c)
                               (w_res c ++ [WRes (wc_id x) (wc_op x) (wc_from x) r (w_view c t)]) (w_panics c) (w_req c))
        | Pan m => WNext (WCfg (w_mem c) (w_view c) (wremove t (w_run c)) (w_next c) (w_res c)
                               (w_panics c ++ [(wc_id x, wc_op x, m)]) (w_req c))
        | Act a kk =>
            match wexec (wc_id x) a k (w_mem c) (w_view c t) with
            | WDone y M tv => WNext (wafter t c x (kk y) M tv)
            | WBad f => WFault f
            | WNone => WDisabled
            end
        | Spin a again kk =>
            match wexec (wc_id x) a k (w_mem c) (w_view c t) with
            | WDone y M tv => if again y then WNext c else WNext (wafter t c x (kk y) M tv)
            | WBad f => WFault f
            | WNone => WDisabled
            end
        end
    end.

  (** [clear] and [reserve_maximum_capacity] need [&mut self]: everything before happened before them,
      everything after happens after them. *)
  Definition wstep (c : wcfg) (l : wlabel) : wstepped :=
    match l with
    | WInv t o from =>
        match wlookup t (w_run c), fetch o from (w_res c) with
        | None, Some x =>
            let tv := vjoin (w_view c t) x in
            WNext (WCfg (w_mem c) (upd (w_view c) t tv)
                        ((t, WCall (w_next c) o tv (op_prog E o)) :: w_run c) (S (w_next c)) (w_res c) (w_panics c)
                        (w_req c + request o))
        | _, _ => WDisabled
        end
    | WStep t k => wstep_thread t k c
    | WSync t u =>
        WNext (WCfg (w_mem c) (upd (w_view c) t (vjoin (w_view c t) (w_view c u))) (w_run c) (w_next c) (w_res c) (w_panics c) (w_req c))
    | WClear =>
        match w_run c with
        | [] => if latest (m_resv (w_mem c)) <=? latest (m_cap (w_mem c))
                then WNext (WCfg (winit [] (latest (m_cap (w_mem c))) (m_max (w_mem c))) (fun _ => vbot) [] (w_next c) [] [] 0)
                else WFault (WF FOob)
        | _ => WDisabled
        end
    | WReserve n =>
        match w_run c with
        | [] => match reserve E (latest (m_cap (w_mem c))) (m_max (w_mem c)) n with
                | Some m => let M := w_mem c in
                    WNext (WCfg (WMem (m_resv M) (m_wrtn M) (m_cap M) m None (m_slots M)) (w_view c) [] (w_next c) (w_res c) (w_panics c) (w_req c))
                | None => WNext c
                end
        | _ => WDisabled
        end
    end.

  Fixpoint wruns (c : wcfg) (ls : list wlabel) : wstepped :=
    match ls with
    | [] => WNext c
    | l :: ls' => match wstep c l with
                  | WNext c' => wruns c' ls'
                  | WFault f => WFault f
                  | WDisabled => WDisabled
                  end
    end.
End Weak.

Arguments wcall : clear implicits.
Arguments wresult : clear implicits.
Arguments wcfg : clear implicits.
Arguments wlabel : clear implicits.
Arguments wstepped : clear implicits.

(** The newest message an access can read. *)
Definition newest {V} (a : act V) (M : wmem V) : nat :=
  match a with
  | LoadResv _ => last_ts (m_resv M)
  | LoadWrtn _ => last_ts (m_wrtn M)
  | LoadCap => last_ts (m_cap M)
  | LoadSt i _ | CasSt i _ _ => last_ts (ws (m_slots M i))
  | _ => 0
  end.

(** The value a growth call that reserved the positions from [b] on stores at position [b+j]. *)
Definition stores {V} (o : op V) (b j : nat) (v : V) : Prop :=
  match o with
  | OPush w => v = w
  | OPushFor f => f b = Some v
  | OExtend _ it | OExtendN it _ => nth_error it j = Some (Some v)
  | OExtendFor f n => exists it, f b = Some (n, it) /\ nth_error it j = Some (Some v)
  | _ => False
  end.

(** ** The discipline: as [client] and [execution] of [Client.v]. *)
Section Exec.
  Context {V : Type} (E : env V).
  (** the call panicked without room having been made for its positions, see [overrun] in [Client.v] *)
  Definition overran (o : op V) (m : panic) : Prop := m = PMaxCap \/ (m = PClosure /\ exists f, o = OPushFor f).
  Definition wclient (ro : bool) (c : wcfg V) (l : wlabel V) : Prop :=
    match l with
    | WInv _ o _ => allowed E ro false o /\ w_req c + request o < wmod E
    | WClear => forall id o m, In (id, o, m) (w_panics c) -> ~ overran o m
    | _ => True
    end.
  Inductive wreach (P : wcfg V -> wlabel V -> Prop) (c0 : wcfg V) : wcfg V -> Prop :=
  | wreach_start : wreach P c0 c0
  | wreach_step c l c' : wreach P c0 c -> P c l -> wstep E c l = WNext c' -> wreach P c0 c'.
  (** [c] is reached from a vector with elements [l0], capacity [c0] and maximum capacity [m0]. *)
  Definition wexecution (ro : bool) (l0 : list V) (c0 m0 : nat) (c : wcfg V) : Prop :=
    env_ok E /\ capok E c0 m0 /\ length l0 <= c0 /\ length l0 < wmod E /\ wreach (wclient ro) (wstart l0 c0 m0) c.

  (** Call [x] returned before call [y] started, as seen by the threads: by program order, by the
      synchronisation of [WSync], or through the vector itself. *)
  Definition before (x y : wresult V) : Prop := vle (r_to x) (r_from y).
End Exec.
