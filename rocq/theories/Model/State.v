(** * /repo/src/state.rs: when a thread may write, must grow, or must wait. *)

From Coq Require Import List Arith Bool.
From Verif.Model Require Import Prog Mem Deps.
Import ListNotations.
Local Open Scope prog_scope.

(** orx-pinned-concurrent-col [WritePermit]. *)
Inductive permit : Type := JustWrite | GrowThenWrite | SpinWait.

(** /repo/src/state.rs:38-54 [write_permit], as a function of the capacity it loads. *)
Definition write_permit (idx capacity : nat) : permit :=
  match Nat.compare idx capacity with
  | Lt => JustWrite
  | Eq => GrowThenWrite
  | Gt => SpinWait
  end.

(** /repo/src/state.rs:56-75 [write_permit_n_items]; [last_idx] is computed by the caller below. *)
Definition write_permit_n_items (begin_idx last_idx capacity : nat) : permit :=
  match Nat.compare begin_idx capacity, Nat.compare last_idx capacity with
  | _, Lt => JustWrite
  | Gt, _ => SpinWait
  | _, _ => GrowThenWrite
  end.

Definition is_spin (p : permit) : bool := match p with SpinWait => true | _ => false end.

Section State.
  Context {V : Type} (E : env V).
  Notation prog := (prog V).

  (** [PinnedConcurrentCol::single_item_as_ref(idx)], called from /repo/src/grow.rs:129,162:
      panics if [idx] is not below the maximum capacity, otherwise asks for the permit until it is
      not [Spin]; the position may be written when it returns. *)
  Definition single_item_as_ref (idx : nat) : prog unit :=
    let! m := core_maximum_capacity in
    if idx <? m then
      Spin LoadCap
           (fun c => is_spin (write_permit idx c))
           (fun c => match write_permit idx c with
                     | GrowThenWrite => grow_to (idx + 1)
                     | _ => Ret tt
                     end)
    else Pan PMaxCap.

  (** [PinnedConcurrentCol::n_items_buffer_as_slices(begin_idx, num_items)], called from
      /repo/src/grow.rs:315,436: as above for the positions [begin_idx .. begin_idx+num_items-1].
      [begin_idx + num_items - 1] (also /repo/src/state.rs:67) is [usize] arithmetic. *)
  Definition n_items_buffer (begin_idx num_items : nat) : prog unit :=
    if num_items =? 0 then Ret tt else
    let! end_idx := chk POverflow (uadd E begin_idx num_items) in
    let! last_idx := chk POverflow (usub E end_idx 1) in
    let! m := core_maximum_capacity in
    if last_idx <? m then
      Spin LoadCap
           (fun c => is_spin (write_permit_n_items begin_idx last_idx c))
           (fun c => match write_permit_n_items begin_idx last_idx c with
                     | GrowThenWrite => grow_to end_idx
                     | _ => Ret tt
                     end)
    else Pan PMaxCap.

  (** /repo/src/state.rs:84-89 [ConcurrentVecState::len]. *)
  Definition state_len : prog nat := doo (LoadResv Relaxed).
End State.
