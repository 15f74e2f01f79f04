(** * Parts of the external dependencies the crate calls on every path.

    The sources of these crates are not in the repository.  The definitions below are their
    documented contracts and are part of the trusted base (DESIGN.md, section "Trusted base"). *)

From Coq Require Import List Arith Bool.
From Verif.Model Require Import Prog Mem.
Import ListNotations.
Local Open Scope prog_scope.

Section Deps.
  Context {V : Type} (E : env V).
  Notation prog := (prog V).

  (** ** orx-concurrent-option *)

  (** Acquire the handle of element [i]: [compare_exchange(init, RESERVED, Acquire, Relaxed)];
      while another handle is alive (state RESERVED) try again; any other state: give up.
      Used by [map], [clone_into_option], [replace], [set_some], [update_if_some], [is_some_and]
      of [ConcurrentOption], called from /repo/src/elem.rs:42,67,99,126,149,174, vec.rs:311,
      common_traits/eq.rs:94. *)
  Definition spin_handle (i : nat) (init : st) : prog bool :=
    Spin (CasSt i init RESERVED)
         (fun r => negb (fst r) && st_eqb (snd r) RESERVED)
         (fun r => Ret (fst r)).

  (** Non waiting variant: one attempt. *)
  Definition try_handle (i : nat) (init : st) : prog bool :=
    let! r := doo (CasSt i init RESERVED) in Ret (fst r).

  (** [ConcurrentOption::mut_handle], called from /repo/src/helpers.rs:34 for [swap]. *)
  Definition option_mut_handle (i : nat) (init : st) : prog bool :=
    if hspin E then spin_handle i init else try_handle i init.

  (** Dropping a [MutHandle] stores the success state (Release); also when unwinding. *)
  Definition drop_handle (i : nat) (succ : st) : prog unit := doo (StoreSt i succ).

  (** [ConcurrentOption::map] (/repo/src/elem.rs:99) and [is_some_and] (common_traits/eq.rs:94):
      the closure reads the value while the handle is held.  [f v = None]: the closure panics; the
      handle is dropped by unwinding.
      Simplification: the closure is a function of the value, it does not call back into the
      vector; closures that do are in [Model/Reentrant.v]. *)
  Definition option_map {U} (i : nat) (f : V -> option U) : prog (option U) :=
    let! h := spin_handle i SOME in
    if h : bool then
      doo (RdBeg i) ;;
      let! v := doo (RdEnd i) in
      drop_handle i SOME ;;
      match f v with Some u => Ret (Some u) | None => Pan PClosure end
    else Ret None.

  (** [ConcurrentOption::clone_into_option] (/repo/src/elem.rs:42,67, vec.rs:311).
      Simplification: [T::clone] yields the same value and does not panic. *)
  Definition option_clone (i : nat) : prog (option V) := option_map i (fun v => Some v).

  (** [ConcurrentOption::replace] (/repo/src/elem.rs:126).  The case of an empty option, in which
      the dependency stores the value and returns [None], is not modelled beyond the return value. *)
  Definition option_replace (i : nat) (v : V) : prog (option V) :=
    let! h := spin_handle i SOME in
    if h : bool then
      doo (WrBeg i) ;;
      let! old := doo (WrEnd i (fun _ => v)) in
      drop_handle i SOME ;;
      Ret (Some old)
    else Ret None.

  (** [ConcurrentOption::set_some] (/repo/src/elem.rs:149): [true] iff the option had a value. *)
  Definition option_set_some (i : nat) (v : V) : prog bool :=
    let! h := spin_handle i SOME in
    if h : bool then
      doo (WrBeg i) ;;
      doo (WrEnd i (fun _ => v)) ;;
      drop_handle i SOME ;;
      Ret true
    else Ret false.

  (** [ConcurrentOption::update_if_some] (/repo/src/elem.rs:174).  The closure gets [&mut T]:
      [f v = (v', ok)] leaves [v'] and returns normally iff [ok]. *)
  Definition option_update (i : nat) (f : V -> V * bool) : prog bool :=
    let! h := spin_handle i SOME in
    if h : bool then
      doo (WrBeg i) ;;
      let! old := doo (WrEnd i (fun v => fst (f v))) in
      drop_handle i SOME ;;
      if snd (f old) then Ret true else Pan PClosure
    else Ret false.

  (** [ConcurrentOption::initialize_unchecked] (/repo/src/grow.rs:130,163,325,444): write the
      value, then store SOME (Release). *)
  Definition initialize_unchecked (i : nat) (v : V) : prog unit :=
    doo (InitBeg i) ;;
    doo (InitEnd i v) ;;
    doo (StoreSt i SOME).

  (** [is_some_with_order] (/repo/src/vec.rs:131), [as_ref_with_order], [get_raw_with_order],
      [get_raw_mut_with_order] (/repo/src/unsafe_api.rs:46,162,273,311): one load of the state. *)
  Definition is_some_with_order (i : nat) (o : ord) : prog bool :=
    let! x := doo (LoadSt i o) in Ret (st_eqb x SOME).

  (** ** orx-pinned-concurrent-col / orx-pinned-vec *)

  (** [PinnedConcurrentCol::capacity], [maximum_capacity] (/repo/src/vec.rs:169,176). *)
  Definition core_capacity : prog nat := doo LoadCap.
  Definition core_maximum_capacity : prog nat := doo LoadMax.

  (** [PinnedConcurrentCol::get(i)]: [Some] iff [i] is below the capacity; the element is
      identified by its position (/repo/src/vec.rs:285,311, helpers.rs:33). *)
  Definition core_get (i : nat) : prog (option nat) :=
    let! c := core_capacity in Ret (if i <? c then Some i else None).

  (** [PinnedConcurrentCol::iter_over_range(a..b)] and [iter(len)]: references to the elements of
      the range; the range must be inside the allocated storage (/repo/src/vec.rs:128,377,
      concurrent_slice/slice.rs:266). *)
  Definition core_iter_over_range (a b : nat) : prog (list nat) :=
    doo (IterRange a b) ;; Ret (seq a (b - a)).
  Definition core_iter (len : nat) : prog (list nat) := core_iter_over_range 0 len.

  (** [grow_to(n)]: the calling thread allocates storage for at least [n] elements, fills it with
      [fill_memory_with] (/repo/src/state.rs:17-19) and publishes the new capacity. *)
  Definition grow_to (n : nat) : prog unit :=
    let! ok := doo (GrowBeg n) in
    if ok : bool then doo (GrowEnd n) else Pan PGrow.
End Deps.
