(** * Several vectors under release/acquire.

    As [Model/Network.v]: threads share a family of vectors, and closures passed to methods of one vector use
    any of them.  Here the memory of each vector is that of [Weak.v] (with closures that call back:
    [WReentrant.v]).  Release stores and acquire loads of one vector order the accesses to all of them: what a
    store of one vector releases includes what its thread knows of the other vectors, and a load that acquires
    it learns this. *)

From Coq Require Import List Arith Bool.
From Verif.Model Require Import Prog Mem Deps State Elem Vec Excl Machine Reentrant Network.
From Verif Require Import Client.
From Verif.RA Require Import Weak WReentrant.
Import ListNotations.

(** The atomic locations of a vector, and the results of its calls: a reference carries what the thread
    knew that got it ([qfetch]). *)
Inductive loc : Type := LResv | LWrtn | LCap | LSt (i : nat) | LRes.
Definition loc_code (l : loc) : nat := match l with LResv => 0 | LWrtn => 1 | LCap => 2 | LRes => 3 | LSt i => 4 + i end.
Definition loc_eqb (a b : loc) : bool := loc_code a =? loc_code b.
(** a store: its location and its place in the modification order *)
Definition place : Type := loc * nat.
Definition place_eqb (a b : place) : bool := loc_eqb (fst a) (fst b) && (snd a =? snd b).

(** What a step does to what is known of other vectors: the store it acquires, the store it makes, the
    store whose release sequence that continues, and whether it releases what the thread knows. *)
Record effect : Type := Eff { e_acq : option place; e_new : option place; e_prev : option place; e_rel : bool }.
Definition no_effect : effect := Eff None None None false.

Section Effect.
  Context {V : Type} (E : env V).

  (** As [wexec]. *)
  Definition weffect (a : act V) (k : nat) (M : wmem V) : res a -> effect :=
    let from o (p : place) := if acquires o then Some p else None in
    match a return res a -> effect with
    | LoadResv o => fun _ => Eff (from o (LResv, k)) None None false
    | AddResv _ o => fun _ => let p := (LResv, last_ts (m_resv M)) in Eff (from o p) (Some (LResv, length (m_resv M))) (Some p) (releases o)
    | LoadWrtn o => fun _ => Eff (from o (LWrtn, k)) None None false
    | MaxWrtn _ o => fun _ => let p := (LWrtn, last_ts (m_wrtn M)) in Eff (from o p) (Some (LWrtn, length (m_wrtn M))) (Some p) (releases o)
    | LoadCap => fun _ => Eff (Some (LCap, k)) None None false
    | LoadSt i o => fun _ => Eff (from o (LSt i, k)) None None false
    | CasSt i _ _ => fun y => if fst y then Eff (Some (LSt i, k)) (Some (LSt i, S k)) (Some (LSt i, k)) false else no_effect
    | StoreSt i _ => fun _ => Eff None (Some (LSt i, length (ws (m_slots M i)))) None true
    | GrowEnd _ => fun _ => Eff None (Some (LCap, length (m_cap M))) None true
    | _ => fun _ => no_effect
    end.
  Definition qeffect (q : qcfg V) (l : qlabel V) : effect :=
    match l with
    | QInv _ o from => match needs (with_answers (fun _ => None) o) with Some _ => Eff (Some (LRes, from)) None None false | None => no_effect end
    | QStep t k =>
        match stack t (q_run q) with
        | [] => no_effect
        | fr :: rest =>
            let tv := q_view q (agent t (length rest)) in
            match k_prog fr with
            | RRet _ => Eff None (Some (LRes, length (q_res q))) None true
            | RAct a _ => match wexec E (k_num fr) a k (q_mem q) tv with WDone y _ _ => weffect a k (q_mem q) y | _ => no_effect end
            | RSpin a again _ => match wexec E (k_num fr) a k (q_mem q) tv with
                                 | WDone y _ _ => if again y then no_effect else weffect a k (q_mem q) y
                                 | _ => no_effect
                                 end
            | _ => no_effect
            end
        end
    | _ => no_effect
    end.
End Effect.

Section Network.
  Context {V : Type} (E : nat -> env V).

  Record xcfg : Type := XCfg {
    xvecs : nat -> qcfg V;                                 (* the vectors: their stores, and what is known of them *)
    xopen : nat -> list (nat * nat);                       (* unfinished calls of each thread: vector, call; innermost first *)
    xage : nat -> nat;                                     (* how often each vector was cleared *)
    xrel : nat -> nat -> place -> nat -> view              (* vector, its age, store: what it releases about each other vector *)
  }.

  Inductive xstepped : Type :=
  | XNext (c : xcfg)
  | XFault (f : wfault)
  | XDisabled.

  Definition xtop (c : xcfg) (t w : nat) : bool :=
    match xopen c t with
    | (w', _) :: _ => w' =? w
    | [] => false
    end.
  Definition xturn (c : xcfg) (t : nat) : bool :=
    match xopen c t with
    | (w, _) :: _ => turn (stack t (q_run (xvecs c w)))
    | [] => true
    end.

  (** [q] with the knowledge of thread [t] replaced *)
  Definition with_view (q : qcfg V) (t : nat) (v : view) : qcfg V :=
    QCfg (q_mem q) (upd (q_view q) (holder t q) v) (q_run q) (q_next q) (q_res q) (q_panics q) (q_req q) (q_hist q) (q_ans q).
  (** what thread [t] knows of vector [w] *)
  Definition knowledge (c : xcfg) (t w : nat) : view := q_view (xvecs c w) (holder t (xvecs c w)).

  Inductive xlabel : Type :=
  | XOn (v : nat) (l : qlabel V)      (* a step on vector [v]; not [QSync] *)
  | XSync (t u : nat).                (* user code of t, maybe a closure, synchronises with u outside of the vectors *)

  (** whose step is it *)
  Definition by_thread (l : qlabel V) : option nat :=
    match l with QInv t _ _ | QStep t _ | QAns t _ | QSync t _ => Some t | QClear | QReserve _ => None end.
  Definition xmay (c : xcfg) (v : nat) (l : qlabel V) : bool :=
    match l with
    | QInv t _ _ => xturn c t
    | QStep t _ | QAns t _ => xtop c t v
    | QClear | QReserve _ => true
    | QSync _ _ => false
    end.
  Definition xcalls (c : xcfg) (v : nat) (l : qlabel V) (q : qcfg V) : nat -> list (nat * nat) :=
    match l with
    | QInv t _ _ => set_at (xopen c) t ((v, length (q_hist (xvecs c v))) :: xopen c t)
    | QStep t _ => if length (stack t (q_run q)) <? length (stack t (q_run (xvecs c v))) then set_at (xopen c) t (tl (xopen c t)) else xopen c
    | _ => xopen c
    end.

  (** what the thread knows of vector [w] after a step on another vector *)
  Definition learned (c : xcfg) (v : nat) (e : effect) (t w : nat) : view :=
    match e_acq e with
    | Some p => vjoin (knowledge c t w) (xrel c v (xage c v) p w)
    | None => knowledge c t w
    end.
  (** what its store releases about [w]; so far nothing has been released there *)
  Definition released (c : xcfg) (v : nat) (e : effect) (t : nat) (p : place) (w : nat) : view :=
    let old x := xrel c v (xage c v) x w in
    let x := match e_prev e with Some p' => vjoin (old p) (old p') | None => old p end in
    if e_rel e then vjoin x (learned c v e t w) else x.
  Definition vecs_after (c : xcfg) (v : nat) (l : qlabel V) (q : qcfg V) (w : nat) : qcfg V :=
    if w =? v then q
    else match by_thread l with
         | Some t => match e_acq (qeffect (E v) (xvecs c v) l) with
                     | Some _ => with_view (xvecs c w) t (learned c v (qeffect (E v) (xvecs c v) l) t w)
                     | None => xvecs c w
                     end
         | None => xvecs c w
         end.
  Definition rel_after (c : xcfg) (v : nat) (l : qlabel V) : nat -> nat -> place -> nat -> view :=
    match l with
    | QClear => fun v' a p w => if w =? v then vbot else xrel c v' a p w         (* what was known of the old stores of [v] does not matter any more *)
    | _ => match by_thread l, e_new (qeffect (E v) (xvecs c v) l) with
           | Some t, Some p => fun v' a p' w => if (v' =? v) && (a =? xage c v) && place_eqb p' p && negb (w =? v)
                                                then released c v (qeffect (E v) (xvecs c v) l) t p w else xrel c v' a p' w
           | _, _ => xrel c
           end
    end.

  Definition xstep (c : xcfg) (l : xlabel) : xstepped :=
    match l with
    | XOn v l =>
        if xmay c v l then
          match qstep (E v) (xvecs c v) l with
          | QNext q => XNext (XCfg (vecs_after c v l q) (xcalls c v l q)
                                   (match l with QClear => set_at (xage c) v (S (xage c v)) | _ => xage c end) (rel_after c v l))
          | QFault f => XFault f
          | QDisabled => XDisabled
          end
        else XDisabled
    | XSync t u =>
        if xturn c t
        then XNext (XCfg (fun w => with_view (xvecs c w) t (vjoin (knowledge c t w) (knowledge c u w))) (xopen c) (xage c) (xrel c))
        else XDisabled
    end.
  Definition xstart (l : nat -> list V) (c m : nat -> nat) : xcfg :=
    XCfg (fun w => qstart (l w) (c w) (m w)) (fun _ => []) (fun _ => 0) (fun _ _ _ _ => vbot).

  (** ** The discipline: that of [qclient] for each vector *)
  Definition xclient (ro : nat -> bool) (c : xcfg) (l : xlabel) : Prop :=
    match l with XOn v l => qclient (E v) (ro v) (xvecs c v) l | XSync _ _ => True end.
  Inductive xreach (P : xcfg -> xlabel -> Prop) (c0 : xcfg) : xcfg -> Prop :=
  | xreach_start : xreach P c0 c0
  | xreach_step c l c' : xreach P c0 c -> P c l -> xstep c l = XNext c' -> xreach P c0 c'.
  Definition xexecution (ro : nat -> bool) (l0 : nat -> list V) (c0 m0 : nat -> nat) (c : xcfg) : Prop :=
    (forall w, env_ok (E w) /\ capok (E w) (c0 w) (m0 w) /\ length (l0 w) <= c0 w /\ length (l0 w) < wmod (E w)) /\
    xreach (xclient ro) (xstart l0 c0 m0) c.
  (** Steps without [clear] of vectors in [W]. *)
  Definition keeping (W : nat -> Prop) (ro : nat -> bool) (c : xcfg) (l : xlabel) : Prop :=
    xclient ro c l /\ forall v, W v -> l <> XOn v QClear.
  (** Call [id2] of vector [w2] is unfinished, and it was made inside a closure that call [id1] of vector [w1] runs. *)
  Definition xwithin (c : xcfg) (w2 id2 w1 id1 : nat) : Prop :=
    exists t l rest, xopen c t = l ++ (w2, id2) :: rest /\ In (w1, id1) rest.
End Network.

Global Arguments xcfg : clear implicits.
Global Arguments xlabel : clear implicits.
Global Arguments xstepped : clear implicits.
