(** * Executions with several vectors, and what one of the vectors sees of them. *)

From Coq Require Import List Arith Bool.
From Verif.Model Require Import Prog Mem Deps State Elem Vec Excl Machine Reentrant Several.
From Verif Require Import Client Nested.
Import ListNotations.

Section Compare.
  Context {V : Type} (E : env V) (md : eqmode).
  Notation history := (list (mevent V)).

  (** Number of positions of vector [w] asked for, including the [n0] initial ones. *)
  Definition masked (w : nat) (e : mevent V) : nat :=
    match e with MInv _ _ (MOp w' o) => if w' =? w then request o else 0 | _ => 0 end.
  Definition mrequested (w n0 : nat) (h : history) : nat := fold_left (fun n e => n + masked w e) h n0.

  (** The discipline of [Client.v] for the methods of each vector; comparisons are always allowed. *)
  Definition mclient (l0 : nat -> list V) (c : mcfg V) (l : mlabel V) : Prop :=
    match l with
    | MLInv _ (MOp w o) => allowed E false false o /\ mrequested w (length (l0 w)) (mhist c) + request o < wmod E
    | _ => True
    end.

  Inductive mreach (P : mcfg V -> mlabel V -> Prop) (c0 : mcfg V) : mcfg V -> Prop :=
  | mreach_start : mreach P c0 c0
  | mreach_step c l c' : mreach P c0 c -> P c l -> mstep E md c l = MNext c' -> mreach P c0 c'.

  Definition mexecution (l0 : nat -> list V) (c0 m0 : nat -> nat) (c : mcfg V) : Prop :=
    env_ok E /\ (forall w, capok E (c0 w) (m0 w) /\ length (l0 w) <= c0 w /\ length (l0 w) < wmod E) /\
    mreach (mclient l0) (mstart l0 c0 m0) c.

  (** Call [id] has returned or panicked. *)
  Definition is_mend (id : nat) (e : mevent V) : bool :=
    match e with MRet j _ _ | MPan j _ _ => j =? id | _ => false end.
  Definition mdone (h : history) (id : nat) : bool := existsb (is_mend id) h.
  (** Call [id], a call of [o] by thread [t], has started and not ended. *)
  Definition mopen (h : history) (id t : nat) (o : mop V) : Prop :=
    nth_error h id = Some (MInv id t o) /\ mdone h id = false.
  Definition compares (o : mop V) : bool := match o with MOp _ _ => false | _ => true end.
  (** Thread [t] is inside a comparison. *)
  Definition comparing (h : history) (t : nat) : Prop := exists id o, mopen h id t o /\ compares o = true.

  (** What a comparison looks like to one vector: calls of [iter()], and calls of [map] on elements. *)
  Definition inner_op (o : rop V) : Prop :=
    match o with
    | RPlain OIter | RPlain (OSl _ SIter) | RElemMap _ | RPlain (OElem _ (EMap _)) => True
    | _ => False
    end.
  Definition inner (t : nat) (e : revent V) : Prop :=
    match e with
    | NInv _ u _ o => u = t /\ inner_op o
    | NRet _ u _ _ | NPan _ u _ _ => u = t
    | _ => False
    end.
  (** Events that are neither calls of methods of [w], nor accesses to [w]. *)
  Definition elsewhere (w : nat) (h : history) (e : mevent V) : Prop :=
    match e with
    | MInv _ _ (MOp w' _) => w' <> w
    | MInv _ _ _ => True
    | MRet id _ _ | MPan id _ _ => forall t o, nth_error h id <> Some (MInv id t (MOp w o))
    | MAcc _ _ w' _ _ => w' <> w
    end.
  (** [shows w h l]: history [h] of all vectors looks like history [l] of one vector to vector [w].  The calls
      of its methods, and all accesses, are the same; in addition, threads that compare make inner calls. *)
  Inductive shows (w : nat) : history -> list (revent V) -> Prop :=
  | sh_nil : shows w [] []
  | sh_call h l id id' t o : shows w h l -> shows w (h ++ [MInv id t (MOp w o)]) (l ++ [NInv id' t 0 (RPlain o)])
  | sh_acc h l id id' t d a : shows w h l -> shows w (h ++ [MAcc id t w d a]) (l ++ [NAcc id' t d a])
  | sh_ret h l id id' t o r : shows w h l -> nth_error h id = Some (MInv id t (MOp w o)) ->
      shows w (h ++ [MRet id t r]) (l ++ [NRet id' t 0 r])
  | sh_pan h l id id' t o m : shows w h l -> nth_error h id = Some (MInv id t (MOp w o)) ->
      shows w (h ++ [MPan id t m]) (l ++ [NPan id' t 0 m])
  | sh_other h l e : shows w h l -> elsewhere w h e -> shows w (h ++ [e]) l
  | sh_inner h l t e : shows w h l -> comparing h t -> inner t e -> shows w h (l ++ [e]).
End Compare.

Section Values.
  Context {V : Type} (E : env V) (md : eqmode).

  (** Position [i] of vector [w] has value [v]. *)
  Definition holds (c : mcfg V) (w i : nat) (v : V) : Prop :=
    i < cap (msh c w) /\ sst (slots (msh c w) i) <> NONE /\ sval (slots (msh c w) i) = Some v.
  (** Steps that continue an execution. *)
  Definition later (l0 : nat -> list V) (c c' : mcfg V) : Prop := mreach E md (mclient E l0) c c'.
  (** The same, with all configurations on the way. *)
  Inductive trail (l0 : nat -> list V) (c : mcfg V) : list (mcfg V) -> mcfg V -> Prop :=
  | trail_one : trail l0 c [c] c
  | trail_more cs c1 l c2 : trail l0 c cs c1 -> mclient E l0 c1 l -> mstep E md c1 l = MNext c2 -> trail l0 c (cs ++ [c2]) c2.

  (** [l] are the positions that a comparison takes from side [a], when it starts at [c] and ends at [c']: those
      of the slice; or the first ones of the vector, all of which have values, and at least as many as
      [len()] had counted before. *)
  Definition covers (a : operand) (c c' : mcfg V) (l : list nat) : Prop :=
    match a with
    | Whole w => exists n, l = seq 0 n /\ wrtn (msh c w) <= n /\ forall i, i < n -> exists v, holds c' w i v
    | Part w x => l = seq (sl_a x) (sl_len x)
    end.
  (** Call [id], a call of [o] by thread [t], was running at a moment between [c] and [c'] at which position
      [i] of [w] had value [x] and position [j] of [w'] had value [y]. *)
  Definition met (l0 : nat -> list V) (c c' : mcfg V) (id t : nat) (o : mop V) (w i : nat) (x : V) (w' j : nat) (y : V) : Prop :=
    exists d, later l0 c d /\ later l0 d c' /\ mopen (mhist d) id t o /\ holds d w i x /\ holds d w' j y.
End Values.

Section Rest.
  Context {V : Type} (E : env V) (md : eqmode).

  (** Vector [w] has the elements [l], and nobody uses any of them. *)
  Definition contents (c : mcfg V) (w : nat) (l : list V) : Prop :=
    resv (msh c w) = length l /\ wrtn (msh c w) <= length l /\ length l <= cap (msh c w) /\
    forall i v, nth_error l i = Some v -> slots (msh c w) i = Slot SOME (Some v) None [].
  (** Equality of lists, element by element. *)
  Fixpoint same (l l' : list V) : bool :=
    match l, l' with
    | x :: l1, y :: l1' => eqv E x y && same l1 l1'
    | [], [] => true
    | _, _ => false
    end.
  (** [c'] is reached from [c] by steps of thread [t] alone. *)
  Definition alone (t : nat) (c c' : mcfg V) : Prop :=
    mreach E md (fun _ l => match l with MLInv u _ | MLStep u => u = t end) c c'.
  (** The first position that side [a] of a comparison certainly has. *)
  Definition starts_at (a : operand) (c : mcfg V) (i : nat) : Prop :=
    match a with
    | Whole w => i = 0 /\ 0 < wrtn (msh c w)
    | Part w x => i = sl_a x /\ 0 < sl_len x
    end.
End Rest.
