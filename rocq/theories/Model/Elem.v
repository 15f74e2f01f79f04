(** * /repo/src/elem.rs and the element parts of common_traits: operations on one
      [ConcurrentElement], identified by its position. *)

From Coq Require Import List Arith Bool.
From Verif.Model Require Import Prog Mem Deps.
Import ListNotations.
Local Open Scope prog_scope.

Section Elem.
  Context {V : Type} (E : env V).
  Notation prog := (prog V).

  (** /repo/src/elem.rs:38-43 *)
  Definition elem_cloned (i : nat) : prog V :=
    let! o := option_clone i in chk PHasValue o.

  (** /repo/src/elem.rs:63-68 *)
  Definition elem_copied (i : nat) : prog V :=
    let! o := option_clone i in chk PHasValue o.

  (** /repo/src/elem.rs:95-100 *)
  Definition elem_map {U} (i : nat) (f : V -> option U) : prog U :=
    let! o := option_map i f in chk PHasValue o.

  (** /repo/src/elem.rs:125-127 *)
  Definition elem_replace (i : nat) (v : V) : prog V :=
    let! o := option_replace i v in chk PHasValue o.

  (** /repo/src/elem.rs:148-150 *)
  Definition elem_set (i : nat) (v : V) : prog unit :=
    let! ok := option_set_some i v in
    if ok : bool then Ret tt else Pan PSet.

  (** /repo/src/elem.rs:170-175 *)
  Definition elem_update (i : nat) (f : V -> V * bool) : prog unit :=
    let! ok := option_update i f in
    if ok : bool then Ret tt else Pan PUpdate.

  (** /repo/src/common_traits/eq.rs:11-15 [PartialEq<T> for ConcurrentElement<T>]; the comparison is
      assumed not to panic *)
  Definition elem_eq (i : nat) (v : V) : prog bool := elem_map i (fun x => Some (eqv E x v)).
End Elem.
