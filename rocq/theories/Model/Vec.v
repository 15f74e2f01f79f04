(** * /repo/src/vec.rs, helpers.rs, grow.rs, mut_elem.rs, iter_shorthands.rs, partial_eq.rs,
      to_vec.rs, split.rs, concurrent_slice/*.rs, unsafe_api.rs, common_traits/*.rs:
      methods of [ConcurrentVec] and [ConcurrentSlice]. *)

From Coq Require Import List Arith Bool.
From Verif.Model Require Import Prog Mem Deps State Elem.
Import ListNotations.
Local Open Scope prog_scope.

(** [core::ops::RangeBounds<usize>]: the two bounds of a range argument. *)
Inductive bound : Type := BIncl (n : nat) | BExcl (n : nat) | BUnb.
Definition range : Type := (bound * bound)%type.

(** /repo/src/concurrent_slice/slice.rs:12-20: [ConcurrentSlice { vec, a, len }]; the vector is the
    one the model is about. *)
Record cslice : Type := CSlice { sl_a : nat; sl_len : nat }.

Section Vec.
  Context {V : Type} (E : env V).
  Notation prog := (prog V).

  (** ** vec.rs *)

  (** /repo/src/vec.rs:96-103 *)
  Definition reserved_len : prog nat :=
    let! len := state_len in
    let! cap := core_capacity in
    Ret (if len <=? cap then len else cap).

  (** /repo/src/vec.rs:129-135: the counting loop of [len]; stops at the first element that is not
      SOME. *)
  Fixpoint count_pushed (i k : nat) : prog nat :=
    match k with
    | 0 => Ret 0
    | S k' =>
        let! b := is_some_with_order i Relaxed in
        if b : bool then let! n := count_pushed (S i) k' in Ret (S n) else Ret 0
    end.

  (** /repo/src/vec.rs:119-141 *)
  Definition vec_len : prog nat :=
    let! len := doo (LoadWrtn Acquire) in
    let! cap := core_capacity in
    let! len_reserved := doo (LoadResv Relaxed) in
    let until := if len_reserved <=? cap then len_reserved else cap in
    core_iter_over_range len until ;;
    let! num_pushed := count_pushed len (until - len) in
    let new_len := len + num_pushed in
    doo (MaxWrtn new_len Release) ;;
    Ret new_len.

  (** /repo/src/vec.rs:163-165 *)
  Definition vec_is_empty : prog bool := let! n := vec_len in Ret (n =? 0).

  (** /repo/src/vec.rs:168-170, 175-177 *)
  Definition vec_capacity : prog nat := core_capacity.
  Definition vec_maximum_capacity : prog nat := core_maximum_capacity.

  (** orx-pinned-vec [utils::slice::vec_range_limits(range, Some(len))], external: start and
      exclusive end of the range, both limited to [len].  (The documentation tests of slice.rs pin
      the limits for out of bound ranges.) *)
  Definition range_limits (r : range) (len : nat) : option (nat * nat) :=
    let start := match fst r with BIncl n => Some n | BExcl n => uadd E n 1 | BUnb => Some 0 end in
    let stop := match snd r with BIncl n => uadd E n 1 | BExcl n => Some n | BUnb => Some len end in
    match start, stop with
    | Some a, Some b => Some (Nat.min a len, Nat.min b len)
    | _, _ => None
    end.

  (** /repo/src/vec.rs:217-221 *)
  Definition vec_slice (r : range) : prog cslice :=
    let! n := vec_len in
    let! ab := chk POverflow (range_limits r n) in
    let! len := chk POverflow (usub E (snd ab) (fst ab)) in
    Ret (CSlice (fst ab) len).

  (** a..b *)
  Definition rng (a b : nat) : range := (BIncl a, BExcl b).
  (** a.. *)
  Definition rng_from (a : nat) : range := (BIncl a, BUnb).

  (** /repo/src/vec.rs:241-243 *)
  Definition vec_as_slice : prog cslice :=
    let! n := vec_len in vec_slice (rng 0 n).

  (** /repo/src/vec.rs:283-288 *)
  Definition vec_get (i : nat) : prog (option nat) :=
    let! n := vec_len in
    if i <? n then core_get i else Ret None.

  (** /repo/src/common_traits/index.rs:20-22 *)
  Definition vec_index (i : nat) : prog nat :=
    let! o := vec_get i in chk POutOfBounds o.

  (** /repo/src/vec.rs:306-314 *)
  Definition vec_get_cloned (i : nat) : prog (option V) :=
    let! n := reserved_len in
    if i <? n then
      let! o := core_get i in
      match o with Some e => option_clone e | None => Ret None end
    else Ret None.

  (** /repo/src/vec.rs:332-337 *)
  Definition vec_get_copied (i : nat) : prog (option V) := vec_get_cloned i.

  (** /repo/src/vec.rs:376-378.  The returned iterator makes no shared accesses of its own: it is
      the list of the elements it will yield. *)
  Definition vec_iter : prog (list nat) :=
    let! n := vec_len in core_iter n.

  (** /repo/src/vec.rs:401-406, consumed to the end. *)
  Definition vec_iter_cloned : prog (list V) :=
    let! n := vec_len in
    let! l := core_iter n in
    mapP elem_cloned l.

  (** ** helpers.rs and mut_elem.rs *)

  (** /repo/src/helpers.rs:24-38 *)
  Definition vec_mut_handle (i : nat) (init : st) : prog (option nat) :=
    let! n := vec_len in
    if i <? n then
      let! o := core_get i in
      match o with
      | Some e => let! h := option_mut_handle E e init in Ret (if h : bool then Some e else None)
      | None => Ret None
      end
    else Ret None.

  Definition drop_opt (o : option nat) : prog unit :=
    match o with Some i => drop_handle i SOME | None => Ret tt end.

  (** /repo/src/mut_elem.rs:30-44.  Handles are dropped in reverse order of declaration. *)
  Definition vec_swap (i j : nat) : prog bool :=
    let! h_i := vec_mut_handle i SOME in
    let! h_j := vec_mut_handle j SOME in
    match h_i, h_j with
    | Some x, Some y =>
        doo (WrBeg x) ;;
        doo (WrBeg y) ;;
        doo (SwapEnd x y) ;;
        drop_handle y SOME ;;
        drop_handle x SOME ;;
        Ret true
    | _, _ =>
        drop_opt h_j ;;
        drop_opt h_i ;;
        Ret false
    end.

  (** loop shared by /repo/src/mut_elem.rs:61-63 and concurrent_slice/mut_elem.rs:61-63 *)
  Definition fill_elems (l : list nat) (v : V) : prog unit :=
    foldP (fun _ e => elem_set e v) tt l.

  (** /repo/src/mut_elem.rs:57-64 *)
  Definition vec_fill (v : V) : prog unit :=
    let! l := vec_iter in fill_elems l v.

  (** loop shared by /repo/src/mut_elem.rs:87-89 and concurrent_slice/mut_elem.rs:91-93; [k] is the
      number of elements already visited ([enumerate]) *)
  Fixpoint fill_elems_with (k : nat) (l : list nat) (f : nat -> option V) : prog unit :=
    match l with
    | [] => Ret tt
    | e :: l' =>
        let! v := chk PClosure (f k) in
        elem_set e v ;;
        fill_elems_with (S k) l' f
    end.

  (** /repo/src/mut_elem.rs:83-90 *)
  Definition vec_fill_with (f : nat -> option V) : prog unit :=
    let! l := vec_iter in fill_elems_with 0 l f.

  (** ** partial_eq.rs, iter_shorthands.rs, to_vec.rs: loops over the elements [l] of an iterator *)

  (** [Iterator::position(|e| e == value)], /repo/src/partial_eq.rs:22-24 and
      concurrent_slice/partial_eq.rs:26-28 *)
  Fixpoint position (k : nat) (l : list nat) (v : V) : prog (option nat) :=
    match l with
    | [] => Ret None
    | e :: l' =>
        let! b := elem_eq E e v in
        if b : bool then Ret (Some k) else position (S k) l' v
    end.

  Definition vec_index_of (v : V) : prog (option nat) :=
    let! l := vec_iter in position 0 l v.

  Definition is_some {A} (o : option A) : bool := match o with Some _ => true | None => false end.

  (** /repo/src/partial_eq.rs:38-40 *)
  Definition vec_contains (v : V) : prog bool :=
    let! o := vec_index_of v in Ret (is_some o).

  (** /repo/src/iter_shorthands.rs:22-27, consumed to the end.  [f k] is call
      number [k] of the closure *)
  Fixpoint map_elems {U} (l : list nat) (f : nat -> V -> option U) : prog (list U) :=
    match l with
    | [] => Ret []
    | e :: l' =>
        let! u := elem_map e (f 0) in
        let! r := map_elems l' (later f) in
        Ret (u :: r)
    end.
  Definition vec_map {U} (f : nat -> V -> option U) : prog (list U) :=
    let! l := vec_iter in map_elems l f.

  (** /repo/src/iter_shorthands.rs:45-50, consumed to the end; yields elements *)
  Fixpoint filter_elems (l : list nat) (f : nat -> V -> option bool) : prog (list nat) :=
    match l with
    | [] => Ret []
    | e :: l' =>
        let! b := elem_map e (f 0) in
        let! r := filter_elems l' (later f) in
        Ret (if b : bool then e :: r else r)
    end.
  Definition vec_filter (f : nat -> V -> option bool) : prog (list nat) :=
    let! l := vec_iter in filter_elems l f.

  (** /repo/src/iter_shorthands.rs:66-71 *)
  Fixpoint fold_elems {U} (l : list nat) (init : U) (f : nat -> U -> V -> option U) : prog U :=
    match l with
    | [] => Ret init
    | e :: l' =>
        let! agg := elem_map e (fun x => f 0 init x) in
        fold_elems l' agg (later f)
    end.
  Definition vec_fold {U} (init : U) (f : nat -> U -> V -> option U) : prog U :=
    let! l := vec_iter in fold_elems l init f.

  (** ** concurrent_slice/slice.rs *)

  (** /repo/src/concurrent_slice/slice.rs:31-36 *)
  Definition slice_idx (x : cslice) (i : nat) : option nat :=
    if i <? sl_len x then Some (sl_a x + i) else None.

  (** /repo/src/concurrent_slice/slice.rs:114-118.  [self.a + a] is below the length of the vector
      and cannot overflow. *)
  Definition slice_slice (x : cslice) (r : range) : prog cslice :=
    let! ab := chk POverflow (range_limits r (sl_len x)) in
    let! len := chk POverflow (usub E (snd ab) (fst ab)) in
    Ret (CSlice (sl_a x + fst ab) len).

  (** /repo/src/concurrent_slice/slice.rs:163-168 *)
  Definition slice_get (x : cslice) (i : nat) : prog (option nat) :=
    if i <? sl_len x then core_get (sl_a x + i) else Ret None.

  (** /repo/src/common_traits/index.rs:40-42 *)
  Definition slice_index (x : cslice) (i : nat) : prog nat :=
    let! o := slice_get x i in chk POutOfBounds o.

  (** /repo/src/concurrent_slice/slice.rs:189-197, 215-220 *)
  Definition slice_get_cloned (x : cslice) (i : nat) : prog (option V) :=
    if i <? sl_len x then
      let! o := core_get (sl_a x + i) in
      match o with
      | Some e => let! v := elem_cloned e in Ret (Some v)
      | None => Ret None
      end
    else Ret None.

  (** /repo/src/concurrent_slice/slice.rs:264-267 *)
  Definition slice_iter (x : cslice) : prog (list nat) :=
    core_iter_over_range (sl_a x) (sl_a x + sl_len x).

  (** /repo/src/concurrent_slice/slice.rs:292-298, consumed to the end *)
  Definition slice_iter_cloned (x : cslice) : prog (list V) :=
    let! l := slice_iter x in mapP elem_cloned l.

  (** /repo/src/concurrent_slice/mut_elem.rs:35-43 *)
  Definition slice_swap (x : cslice) (i j : nat) : prog bool :=
    match slice_idx x i, slice_idx x j with
    | Some i', Some j' => vec_swap i' j'
    | _, _ => Ret false
    end.

  (** /repo/src/concurrent_slice/mut_elem.rs:57-64, 87-94 *)
  Definition slice_fill (x : cslice) (v : V) : prog unit :=
    let! l := slice_iter x in fill_elems l v.
  Definition slice_fill_with (x : cslice) (f : nat -> option V) : prog unit :=
    let! l := slice_iter x in fill_elems_with 0 l f.

  (** /repo/src/concurrent_slice/partial_eq.rs:26-28, 45-47 *)
  Definition slice_index_of (x : cslice) (v : V) : prog (option nat) :=
    let! l := slice_iter x in position 0 l v.
  Definition slice_contains (x : cslice) (v : V) : prog bool :=
    let! o := slice_index_of x v in Ret (is_some o).

  (** /repo/src/concurrent_slice/to_vec.rs:11-21 *)
  Definition slice_clone_to_vec (x : cslice) : prog (list V) := slice_iter_cloned x.

  (** /repo/src/to_vec.rs:21-26 *)
  Definition vec_clone_to_vec : prog (list V) :=
    let! x := vec_as_slice in slice_clone_to_vec x.

  (** /repo/src/concurrent_slice/iter_shorthands.rs:22-27, 45-50, 66-71 *)
  Definition slice_map {U} (x : cslice) (f : nat -> V -> option U) : prog (list U) :=
    let! l := slice_iter x in map_elems l f.
  Definition slice_filter (x : cslice) (f : nat -> V -> option bool) : prog (list nat) :=
    let! l := slice_iter x in filter_elems l f.
  Definition slice_fold {U} (x : cslice) (init : U) (f : nat -> U -> V -> option U) : prog U :=
    let! l := slice_iter x in fold_elems l init f.

  (** /repo/src/concurrent_slice/iter_shorthands.rs:92-108 *)
  Definition slice_reduce (x : cslice) (f : nat -> V -> V -> option V) : prog (option V) :=
    let! l := slice_iter x in
    match l with
    | [] => Ret None
    | first :: rest =>
        let! agg := elem_cloned first in
        let! r := fold_elems rest agg f in
        Ret (Some r)
    end.

  (** /repo/src/iter_shorthands.rs:92-98 *)
  Definition vec_reduce (f : nat -> V -> V -> option V) : prog (option V) :=
    let! x := vec_as_slice in slice_reduce x f.

  (** ** split.rs and concurrent_slice/split.rs *)

  (** /repo/src/split.rs:27-30 *)
  Definition vec_split_at (mid : nat) : prog (cslice * cslice) :=
    let! n := vec_len in
    if mid <=? n then
      let! l := vec_slice (rng 0 mid) in
      let! r := vec_slice (rng_from mid) in
      Ret (l, r)
    else Pan PAssert.

  (** /repo/src/split.rs:55-63 *)
  Definition vec_split_first : prog (option (nat * cslice)) :=
    let! o := vec_get 0 in
    match o with
    | Some a =>
        let! n := vec_len in
        let! b := vec_slice (rng 1 n) in
        Ret (Some (a, b))
    | None => Ret None
    end.

  (** /repo/src/split.rs:88-98 *)
  Definition vec_split_last : prog (option (nat * cslice)) :=
    let! len := vec_len in
    match len with
    | 0 => Ret None
    | _ =>
        let! a := vec_slice (rng 0 (len - 1)) in
        let! b := vec_index (len - 1) in
        Ret (Some (b, a))
    end.

  (** ranges of the chunks, /repo/src/split.rs:128-141 = concurrent_slice/split.rs:138-151 *)
  Definition chunk_ranges (len chunk_size : nat) : list (nat * nat) :=
    let q := len / chunk_size in
    let remainder := len - q * chunk_size in
    let num_slices := if 0 <? remainder then q + 1 else q in
    map (fun i =>
           let a := i * chunk_size in
           let b := a + (if (i =? num_slices - 1) && (0 <? remainder) then remainder else chunk_size) in
           (a, b))
        (seq 0 num_slices).

  (** /repo/src/split.rs:122-143, iterator consumed to the end *)
  Definition vec_chunks (chunk_size : nat) : prog (list cslice) :=
    if 0 <? chunk_size then
      let! len := vec_len in
      mapP (fun ab => vec_slice (rng (fst ab) (snd ab))) (chunk_ranges len chunk_size)
    else Pan PAssert.

  (** /repo/src/concurrent_slice/split.rs:30-37 *)
  Definition slice_split_at (x : cslice) (mid : nat) : prog (cslice * cslice) :=
    let len := sl_len x in
    if mid <=? len then
      let! l := slice_slice x (rng 0 mid) in
      let! r := slice_slice x (rng mid len) in
      Ret (l, r)
    else Pan PAssert.

  (** /repo/src/concurrent_slice/split.rs:63-71 *)
  Definition slice_split_first (x : cslice) : prog (option (nat * cslice)) :=
    let! o := slice_get x 0 in
    match o with
    | Some a =>
        let! b := slice_slice x (rng 1 (sl_len x)) in
        Ret (Some (a, b))
    | None => Ret None
    end.

  (** /repo/src/concurrent_slice/split.rs:97-107 *)
  Definition slice_split_last (x : cslice) : prog (option (nat * cslice)) :=
    match sl_len x with
    | 0 => Ret None
    | len =>
        let! a := slice_slice x (rng 0 (len - 1)) in
        let! b := slice_index x (len - 1) in
        Ret (Some (b, a))
    end.

  (** /repo/src/concurrent_slice/split.rs:132-153 *)
  Definition slice_chunks (x : cslice) (chunk_size : nat) : prog (list cslice) :=
    if 0 <? chunk_size then
      mapP (fun ab => slice_slice x (rng (fst ab) (snd ab))) (chunk_ranges (sl_len x) chunk_size)
    else Pan PAssert.

  (** ** common_traits/eq.rs and debug.rs *)

  (** /repo/src/common_traits/eq.rs:86-99 [eq_elem_iter_to_iter].  [a.0.is_some_and(..)] *)
  Fixpoint eq_elems_list (l : list nat) (vs : list V) : prog bool :=
    match l, vs with
    | e :: l', v :: vs' =>
        let! o := option_map e (fun x => Some (eqv E x v)) in
        match o with
        | Some true => eq_elems_list l' vs'
        | _ => Ret false
        end
    | [], [] => Ret true
    | _, _ => Ret false
    end.

  (** /repo/src/common_traits/eq.rs:31-35, 37-41 (vec with slice/array), 57-61, 63-67 (slices) *)
  Definition vec_eq_list (vs : list V) : prog bool :=
    let! l := vec_iter in eq_elems_list l vs.
  Definition slice_eq_list (x : cslice) (vs : list V) : prog bool :=
    let! l := slice_iter x in eq_elems_list l vs.

  (** /repo/src/common_traits/debug.rs:33-46 [fmt_elems_iter]: the pieces written to the formatter;
      [show] is [Debug] of the element.  Writing to the formatter does not fail. *)
  Inductive piece : Type := POpen | PFirst (v : V) | PNext (v : V) | PClose.
  Definition fmt_elems (l : list nat) : prog (list piece) :=
    match l with
    | [] => Ret [POpen; PClose]
    | first :: rest =>
        let! x := elem_map first (fun x => Some (PFirst x)) in
        let! r := mapP (fun e => elem_map e (fun x => Some (PNext x))) rest in
        Ret (POpen :: x :: r ++ [PClose])
    end.
  Definition vec_debug : prog (list piece) := let! l := vec_iter in fmt_elems l.
  Definition slice_debug (x : cslice) : prog (list piece) := let! l := slice_iter x in fmt_elems l.

  (** ** grow.rs *)

  (** /repo/src/grow.rs:125-133 *)
  Definition push (value : V) : prog nat :=
    let! idx := doo (AddResv 1 Relaxed) in
    single_item_as_ref idx ;;
    initialize_unchecked idx value ;;
    Ret idx.

  (** /repo/src/grow.rs:154-166; [f idx = None]: the closure panics *)
  Definition push_for_idx (f : nat -> option V) : prog nat :=
    let! idx := doo (AddResv 1 Relaxed) in
    let! value := chk PClosure (f idx) in
    single_item_as_ref idx ;;
    initialize_unchecked idx value ;;
    Ret idx.

  (** The loop of /repo/src/grow.rs:320-327 and 439-446 over the positions [i .. i+n-1].  The
      iterator is the list of the results of its [next] calls, [None] in it is a panic of [next];
      at the end of the list [next] returns [None]. *)
  Fixpoint write_items (i n : nat) (it : list (option V)) : prog unit :=
    match n with
    | 0 => Ret tt
    | S n' =>
        match it with
        | [] => Pan PShortIter
        | None :: _ => Pan PClosure
        | Some v :: it' =>
            initialize_unchecked i v ;;
            write_items (S i) n' it'
        end
    end.

  (** /repo/src/grow.rs:431-449 *)
  Definition extend_n_items (it : list (option V)) (num_items : nat) : prog nat :=
    let! begin_idx := doo (AddResv num_items Relaxed) in
    n_items_buffer E begin_idx num_items ;;
    write_items begin_idx num_items it ;;
    Ret begin_idx.

  (** /repo/src/grow.rs:272-280; [claimed] is what [ExactSizeIterator::len] reports, it need not be
      the number of items *)
  Definition extend (claimed : nat) (it : list (option V)) : prog nat :=
    extend_n_items it claimed.

  (** /repo/src/grow.rs:308-330; [f begin_idx = None]: the closure panics *)
  Definition extend_for_idx (f : nat -> option (nat * list (option V))) (num_items : nat) : prog nat :=
    let! begin_idx := doo (AddResv num_items Relaxed) in
    n_items_buffer E begin_idx num_items ;;
    let! values := chk PClosure (f begin_idx) in
    if fst values =? num_items then
      write_items begin_idx num_items (snd values) ;;
      Ret begin_idx
    else Pan PIterLen.

  (** ** unsafe_api.rs, concurrent_slice/unsafe_api.rs.  A pointer or reference to the value of the
      element at position [i] is identified by [i]. *)

  (** /repo/src/unsafe_api.rs:42-50 [get_raw], 158-166 [get_ref], 307-315 [get_raw_mut],
      363-371 [get_mut]: the same accesses *)
  Definition vec_get_ref (i : nat) : prog (option nat) :=
    let! n := reserved_len in
    if i <? n then
      let! o := core_get i in
      match o with
      | Some e => let! b := is_some_with_order e SeqCst in Ret (if b : bool then Some e else None)
      | None => Ret None
      end
    else Ret None.

  (** /repo/src/unsafe_api.rs:271-274 [iter_ref], 421-424 [iter_mut], consumed to the end *)
  Fixpoint refs_of (l : list nat) : prog (list nat) :=
    match l with
    | [] => Ret []
    | e :: l' =>
        let! b := is_some_with_order e SeqCst in
        let! r := refs_of l' in
        Ret (if b : bool then e :: r else r)
    end.
  Definition vec_iter_ref : prog (list nat) :=
    let! n := reserved_len in
    let! l := core_iter n in
    refs_of l.

  (** /repo/src/concurrent_slice/unsafe_api.rs:43,148,292,347 and 255-259, 401-405 *)
  Definition slice_get_ref (x : cslice) (i : nat) : prog (option nat) :=
    match slice_idx x i with Some j => vec_get_ref j | None => Ret None end.
  Definition slice_iter_ref (x : cslice) : prog (list nat) :=
    let! l := slice_iter x in refs_of l.

  (** What the client does with a [&T] / [&mut T] it obtained: an access without any
      synchronisation. *)
  Definition deref (i : nat) : prog V :=
    doo (RdBeg i) ;; doo (RdEnd i).
  Definition deref_mut (i : nat) (f : V -> V) : prog V :=
    doo (WrBeg i) ;; doo (WrEnd i f).

  (** ** Operations on an exclusively owned vector *)

  (** /repo/src/common_traits/from_iter.rs:4-20 on the vector created by [new()]; [hint] is the
      result of [size_hint] *)
  Definition from_iter (hint : nat * option nat) (it : list (option V)) : prog unit :=
    match hint with
    | (a, Some b) =>
        if a =? b then let! _ := extend_n_items it a in Ret tt
        else foldP (fun _ x => let! v := chk PClosure x in let! _ := push v in Ret tt) tt it
    | _ => foldP (fun _ x => let! v := chk PClosure x in let! _ := push v in Ret tt) tt it
    end.
End Vec.

Global Arguments piece : clear implicits.
