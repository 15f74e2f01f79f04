(** * What each method does: its result, and the effects it has on the vector, as a relation.

    [tr] is the list of the accesses made by the call, [sI] the state at its invocation and [sR] the
    state at its return.  [Specs.v] proves that every method satisfies its relation under arbitrary
    interference by other threads. *)

From Coq Require Import List Arith Bool.
From Verif.Model Require Import Prog Mem Deps State Elem Vec Excl Machine.
From Verif Require Import Client.
From Verif.Logic Require Import Inv WP.
Import ListNotations.

Section Post.
  Context {V : Type} (E : env V).
  Notation shared := (shared V).
  Notation acc := (acc V).

  (** accesses that change something or read a value *)
  Definition is_eff (a : acc) : bool :=
    match a with
    | AcAdd _ _ | AcInit _ _ | AcRead _ _ | AcWrite _ _ _ | AcSwap _ _ _ _ => true
    | AcSt _ _ | AcResv _ | AcCap _ => false
    end.
  Definition eff (tr : list acc) : list acc := filter is_eff tr.

  (** values [vs] published / read at the positions [a], [a+1], ... *)
  Fixpoint inits (a : nat) (vs : list V) : list acc :=
    match vs with [] => [] | v :: vs' => AcInit a v :: inits (S a) vs' end.
  Fixpoint reads (a : nat) (vs : list V) : list acc :=
    match vs with [] => [] | v :: vs' => AcRead a v :: reads (S a) vs' end.
  (** values at [a], [a+1], ... overwritten: pairs of old and new value *)
  Fixpoint writes (a : nat) (ps : list (V * V)) : list acc :=
    match ps with [] => [] | p :: ps' => AcWrite a (fst p) (snd p) :: writes (S a) ps' end.

  (** a result [n] of [len] *)
  Definition len_reason (n : nat) (tr : list acc) : Prop :=
    In (AcCap n) tr \/ In (AcResv n) tr \/ exists x, x <> SOME /\ In (AcSt n x) tr.
  Definition lenres (n : nat) (tr : list acc) (sI sR : shared) : Prop :=
    wrtn sI <= n <= wrtn sR /\ len_reason n tr.

  (** evidence that position [i] had no value *)
  Definition absent (i : nat) (tr : list acc) : Prop :=
    (exists n, n <= i /\ (In (AcResv n) tr \/ In (AcCap n) tr)) \/ In (AcSt i NONE) tr.

  Fixpoint mapn {U} (f : nat -> V -> option U) (vs : list V) : list (option U) :=
    match vs with [] => [] | v :: vs' => f 0 v :: mapn (later f) vs' end.
  Lemma mapn_length {U} vs : forall f : nat -> V -> option U, length (mapn f vs) = length vs.
  Proof. induction vs; intros f; simpl; auto. Qed.
  Fixpoint ofold {U} (f : nat -> U -> V -> option U) (u : U) (vs : list V) : option U :=
    match vs with
    | [] => Some u
    | v :: vs' => match f 0 u v with Some u' => ofold (later f) u' vs' | None => None end
    end.
  Fixpoint pick (a : nat) (bs : list bool) : list nat :=
    match bs with [] => [] | b :: bs' => if b then a :: pick (S a) bs' else pick (S a) bs' end.

  (** ** Methods that go over the positions [a .. a+n-1] *)
  Definition b_iter (a n : nat) (r : ret V) (tr : list acc) : Prop :=
    r = RElems (seq a n) /\ eff tr = [].
  Definition b_cloned (a n : nat) (r : ret V) (tr : list acc) : Prop :=
    exists vs, length vs = n /\ r = RVals vs /\ eff tr = reads a vs.
  Definition b_fill (v : V) (a n : nat) (r : ret V) (tr : list acc) : Prop :=
    exists olds, length olds = n /\ r = RUnit /\ eff tr = writes a (map (fun o => (o, v)) olds).
  Definition b_fill_with (f : nat -> option V) (a n : nat) (r : ret V) (tr : list acc) : Prop :=
    exists ps, length ps = n /\ r = RUnit /\ eff tr = writes a ps /\
               forall k p, nth_error ps k = Some p -> f k = Some (snd p).
  Definition scan (v : V) (a n : nat) (o : option nat) (tr : list acc) : Prop :=
    exists vs, eff tr = reads a vs /\
      match o with
      | Some k => k < n /\ length vs = S k /\
                  forall j x, nth_error vs j = Some x -> eqv E x v = (j =? k)
      | None => length vs = n /\ forall x, In x vs -> eqv E x v = false
      end.
  Definition b_index_of (v : V) (a n : nat) (r : ret V) (tr : list acc) : Prop :=
    exists o, r = ROptNat o /\ scan v a n o tr.
  Definition b_contains (v : V) (a n : nat) (r : ret V) (tr : list acc) : Prop :=
    exists o, r = RBool (is_some o) /\ scan v a n o tr.
  Definition b_map (f : nat -> V -> option V) (a n : nat) (r : ret V) (tr : list acc) : Prop :=
    exists vs us, length vs = n /\ r = RVals us /\ eff tr = reads a vs /\ mapn f vs = map Some us.
  Definition b_filter (f : nat -> V -> option bool) (a n : nat) (r : ret V) (tr : list acc) : Prop :=
    exists vs bs, length vs = n /\ r = RElems (pick a bs) /\ eff tr = reads a vs /\ mapn f vs = map Some bs.
  Definition b_fold (init : V) (f : nat -> V -> V -> option V) (a n : nat) (r : ret V) (tr : list acc) : Prop :=
    exists vs u, length vs = n /\ r = RVal u /\ eff tr = reads a vs /\ ofold f init vs = Some u.
  Definition b_reduce (f : nat -> V -> V -> option V) (a n : nat) (r : ret V) (tr : list acc) : Prop :=
    exists vs o, length vs = n /\ r = ROptVal o /\ eff tr = reads a vs /\
      match vs with
      | [] => o = None
      | v :: vs' => exists u, ofold f v vs' = Some u /\ o = Some u
      end.
  Definition b_eq (l : list V) (a n : nat) (r : ret V) (tr : list acc) : Prop :=
    exists vs b, r = RBool b /\ eff tr = reads a vs /\ length vs <= n /\ length vs <= length l /\
      if b : bool then n = length l /\ length vs = n /\ Forall2 (fun x y => eqv E x y = true) vs l
      else (exists vs' x y, vs = vs' ++ [x] /\ nth_error l (length vs') = Some y /\ eqv E x y = false /\
                            Forall2 (fun x y => eqv E x y = true) vs' (firstn (length vs') l))
           \/ (n <> length l /\ length vs = Nat.min n (length l) /\
               Forall2 (fun x y => eqv E x y = true) vs (firstn (length vs) l)).
  Definition pieces (vs : list V) : list (piece V) :=
    match vs with
    | [] => [POpen; PClose]
    | v :: vs' => POpen :: PFirst v :: map PNext vs' ++ [PClose]
    end.
  Definition b_debug (a n : nat) (r : ret V) (tr : list acc) : Prop :=
    exists vs, length vs = n /\ r = RPieces (pieces vs) /\ eff tr = reads a vs.
  Definition b_iter_ref (a n : nat) (r : ret V) (tr : list acc) : Prop :=
    exists bs, length bs = n /\ r = RRefs (pick a bs) /\ eff tr = [] /\
      forall k b, nth_error bs k = Some b -> exists x, In (AcSt (a + k) x) tr /\ b = st_eqb x SOME.

  (** ** Methods of an element *)
  Definition post_elem (i : nat) (o : eop V) (r : ret V) (tr : list acc) : Prop :=
    match o with
    | ECloned | ECopied => exists v, r = RVal v /\ eff tr = [AcRead i v]
    | EMap f => exists v u, r = RVal u /\ eff tr = [AcRead i v] /\ f v = Some u
    | EReplace v => exists old, r = RVal old /\ eff tr = [AcWrite i old v]
    | ESet v => exists old, r = RUnit /\ eff tr = [AcWrite i old v]
    | EUpdate f => exists old, r = RUnit /\ eff tr = [AcWrite i old (fst (f old))] /\ snd (f old) = true
    | EEq v => exists x, r = RBool (eqv E x v) /\ eff tr = [AcRead i x]
    end.

  (** ** swap *)
  Definition post_swap (i j : nat) (r : ret V) (tr : list acc) (sI sR : shared) : Prop :=
    (exists v w, r = RBool true /\ i <> j /\ eff tr = [AcSwap i j v w] /\ i < wrtn sR /\ j < wrtn sR) \/
    (r = RBool false /\ eff tr = [] /\
     ((exists n, lenres n tr sI sR /\ (n <= i \/ n <= j)) \/
      (hspin E = false /\ (In (AcSt i RESERVED) tr \/ In (AcSt j RESERVED) tr)))).

  (** ** Methods of a slice *)
  Definition chunk_slices (a n k : nat) : list cslice :=
    map (fun ab => CSlice (a + fst ab) (snd ab - fst ab)) (chunk_ranges n k).

  Definition post_slice (x : cslice) (o : sop V) (r : ret V) (tr : list acc) (sI sR : shared) : Prop :=
    let a := sl_a x in
    let n := sl_len x in
    match o with
    | SGet i => r = ROptElem (if i <? n then Some (a + i) else None) /\ eff tr = []
    | SIndex i => i < n /\ r = RElem (a + i) /\ eff tr = []
    | SGetCloned i => (i < n /\ exists v, r = ROptVal (Some v) /\ eff tr = [AcRead (a + i) v])
                      \/ (n <= i /\ r = ROptVal None /\ eff tr = [])
    | SSlice rg => exists p q, range_limits E rg n = Some (p, q) /\ p <= q <= n /\
                               r = RSl (CSlice (a + p) (q - p)) /\ eff tr = []
    | SIter => b_iter a n r tr
    | SIterCloned | SCloneToVec => b_cloned a n r tr
    | SSwap i j => (i < n /\ j < n /\ post_swap (a + i) (a + j) r tr sI sR)
                   \/ ((n <= i \/ n <= j) /\ r = RBool false /\ eff tr = [])
    | SFill v => b_fill v a n r tr
    | SFillWith f => b_fill_with f a n r tr
    | SIndexOf v => b_index_of v a n r tr
    | SContains v => b_contains v a n r tr
    | SMap f => b_map f a n r tr
    | SFilter f => b_filter f a n r tr
    | SFold init f => b_fold init f a n r tr
    | SReduce f => b_reduce f a n r tr
    | SSplitAt m => m <= n /\ r = RSl2 (CSlice a m) (CSlice (a + m) (n - m)) /\ eff tr = []
    | SSplitFirst => r = ROptSplit (match n with 0 => None | S k => Some (a, CSlice (a + 1) k) end) /\ eff tr = []
    | SSplitLast => r = ROptSplit (match n with 0 => None | S k => Some (a + k, CSlice a k) end) /\ eff tr = []
    | SChunks k => 0 < k /\ r = RSls (chunk_slices a n k) /\ eff tr = []
    | SEqList l => b_eq l a n r tr
    | SDebug => b_debug a n r tr
    | SGetRef i => (i < n /\ r = ROptRef (Some (a + i)) /\ In (AcSt (a + i) SOME) tr /\ eff tr = [])
                   \/ (r = ROptRef None /\ eff tr = [] /\
                       (n <= i \/ absent (a + i) tr \/ In (AcSt (a + i) RESERVED) tr))
    | SIterRef => b_iter_ref a n r tr
    end.

  (** ** Methods of the vector *)
  Definition grow_post (n : nat) (vs : list V) (b : nat) (r : ret V) (tr : list acc) : Prop :=
    r = RNat b /\ length vs = n /\ eff tr = AcAdd b n :: inits b vs.

  Definition post (o : op V) (r : ret V) (tr : list acc) (sI sR : shared) : Prop :=
    match o with
    | OPush v => exists b, grow_post 1 [v] b r tr
    | OPushFor f => exists b v, f b = Some v /\ grow_post 1 [v] b r tr
    | OExtend n it | OExtendN it n => exists b vs, firstn n it = map Some vs /\ grow_post n vs b r tr
    | OExtendFor f n => exists b it vs, f b = Some (n, it) /\ firstn n it = map Some vs /\ grow_post n vs b r tr
    | OLen => exists n, r = RNat n /\ eff tr = [] /\ lenres n tr sI sR
    | OIsEmpty => exists n, r = RBool (n =? 0) /\ eff tr = [] /\ lenres n tr sI sR
    | OCap => exists n, r = RNat n /\ eff tr = [] /\ In (AcCap n) tr
    | OMaxCap => r = RNat (maxc sI) /\ eff tr = []
    | OGet i => exists n, r = ROptElem (if i <? n then Some i else None) /\ eff tr = [] /\ lenres n tr sI sR
    | OIndex i => exists n, i < n /\ r = RElem i /\ eff tr = [] /\ lenres n tr sI sR
    | OGetCloned i | OGetCopied i =>
        (exists v, r = ROptVal (Some v) /\ eff tr = [AcRead i v]) \/
        (r = ROptVal None /\ eff tr = [] /\ absent i tr)
    | OSlice rg => exists n p q, lenres n tr sI sR /\ range_limits E rg n = Some (p, q) /\ p <= q <= n /\
                                 r = RSl (CSlice p (q - p)) /\ eff tr = []
    | OAsSlice => exists n, lenres n tr sI sR /\ r = RSl (CSlice 0 n) /\ eff tr = []
    | OIter => exists n, lenres n tr sI sR /\ b_iter 0 n r tr
    | OIterCloned | OCloneToVec => exists n, lenres n tr sI sR /\ b_cloned 0 n r tr
    | OSwap i j => post_swap i j r tr sI sR
    | OFill v => exists n, lenres n tr sI sR /\ b_fill v 0 n r tr
    | OFillWith f => exists n, lenres n tr sI sR /\ b_fill_with f 0 n r tr
    | OIndexOf v => exists n, lenres n tr sI sR /\ b_index_of v 0 n r tr
    | OContains v => exists n, lenres n tr sI sR /\ b_contains v 0 n r tr
    | OMap f => exists n, lenres n tr sI sR /\ b_map f 0 n r tr
    | OFilter f => exists n, lenres n tr sI sR /\ b_filter f 0 n r tr
    | OFold init f => exists n, lenres n tr sI sR /\ b_fold init f 0 n r tr
    | OReduce f => exists n, lenres n tr sI sR /\ b_reduce f 0 n r tr
    | OSplitAt m => exists n, lenres n tr sI sR /\ m <= n /\
                              r = RSl2 (CSlice 0 m) (CSlice m (n - m)) /\ eff tr = []
    | OSplitFirst => exists n, lenres n tr sI sR /\ eff tr = [] /\
                      r = ROptSplit (match n with 0 => None | S k => Some (0, CSlice 1 k) end)
    | OSplitLast => exists n, lenres n tr sI sR /\ eff tr = [] /\
                      r = ROptSplit (match n with 0 => None | S k => Some (k, CSlice 0 k) end)
    | OChunks k => exists n, lenres n tr sI sR /\ 0 < k /\ r = RSls (chunk_slices 0 n k) /\ eff tr = []
    | OEqList l => exists n, lenres n tr sI sR /\ b_eq l 0 n r tr
    | ODebug => exists n, lenres n tr sI sR /\ b_debug 0 n r tr
    | OElem i o => post_elem i o r tr
    | OSl x o => post_slice x o r tr sI sR
    | OGetRef i => (r = ROptRef (Some i) /\ In (AcSt i SOME) tr /\ eff tr = [])
                   \/ (r = ROptRef None /\ eff tr = [] /\ (absent i tr \/ In (AcSt i RESERVED) tr))
    | OIterRef => exists n, (In (AcResv n) tr \/ In (AcCap n) tr) /\ b_iter_ref 0 n r tr
    | ODeref i => exists v, r = RVal v /\ eff tr = [AcRead i v]
    | ODerefMut i f => exists v, r = RVal v /\ eff tr = [AcWrite i v (f v)]
    end.

  (** ** Panics *)
  (** the closure panics for the last of the values (and for no other) *)
  Fixpoint stops {U} (f : nat -> V -> option U) (vs : list V) : Prop :=
    match vs with
    | [] => False
    | v :: vs' => match f 0 v with None => vs' = [] | Some _ => stops (later f) vs' end
    end.
  Fixpoint fold_stops {U} (f : nat -> U -> V -> option U) (u : U) (vs : list V) : Prop :=
    match vs with
    | [] => False
    | v :: vs' => match f 0 u v with None => vs' = [] | Some u' => fold_stops (later f) u' vs' end
    end.
  Definition reads_pan (P : list V -> Prop) (a n : nat) (m : panic) (tr : list acc) : Prop :=
    m = PClosure /\ exists vs, length vs <= n /\ eff tr = reads a vs /\ P vs.
  Definition red_stops (f : nat -> V -> V -> option V) (vs : list V) : Prop :=
    match vs with [] => False | v :: vs' => fold_stops f v vs' end.
  Definition writes_pan (f : nat -> option V) (a n : nat) (m : panic) (tr : list acc) : Prop :=
    m = PClosure /\ exists ps, length ps < n /\ f (length ps) = None /\ eff tr = writes a ps /\
      forall k p, nth_error ps k = Some p -> f k = Some (snd p).
  Definition over (rg : range) (n : nat) (m : panic) (tr : list acc) : Prop :=
    m = POverflow /\ ochk E = true /\ eff tr = [] /\ forall p q, range_limits E rg n = Some (p, q) -> q < p.

  Definition pan_elem (i : nat) (o : eop V) (m : panic) (tr : list acc) : Prop :=
    match o with
    | EMap f => m = PClosure /\ exists v, eff tr = [AcRead i v] /\ f v = None
    | EUpdate f => m = PClosure /\ exists old, eff tr = [AcWrite i old (fst (f old))] /\ snd (f old) = false
    | _ => False
    end.
  Definition pan_slice (x : cslice) (o : sop V) (m : panic) (tr : list acc) : Prop :=
    let a := sl_a x in
    let n := sl_len x in
    match o with
    | SIndex i => m = POutOfBounds /\ n <= i /\ eff tr = []
    | SSlice rg => over rg n m tr
    | SFillWith f => writes_pan f a n m tr
    | SMap f => reads_pan (stops f) a n m tr
    | SFilter f => reads_pan (stops f) a n m tr
    | SFold init f => reads_pan (fold_stops f init) a n m tr
    | SReduce f => reads_pan (red_stops f) a n m tr
    | SSplitAt k => m = PAssert /\ n < k /\ eff tr = []
    | SChunks k => m = PAssert /\ k = 0 /\ eff tr = []
    | _ => False
    end.

  (** a growth call that reserved [n] positions from [b] on and wrote [vs] to the first of them *)
  Definition grow_pan (n : nat) (it : list (option V)) (b : nat) (m : panic) (tr : list acc) (sI sR : shared) : Prop :=
    (m = PMaxCap /\ 0 < n /\ maxc sI < b + n /\ eff tr = [AcAdd b n]) \/
    (b + n <= cap sR /\ exists vs, length vs < n /\ eff tr = AcAdd b n :: inits b vs /\
       ((m = PShortIter /\ it = map Some vs) \/
        (m = PClosure /\ exists it', it = map Some vs ++ None :: it'))).
  Definition pan (o : op V) (m : panic) (tr : list acc) (sI sR : shared) : Prop :=
    match o with
    | OPush v => exists b, m = PMaxCap /\ maxc sI <= b /\ eff tr = [AcAdd b 1]
    | OPushFor f => exists b, eff tr = [AcAdd b 1] /\
                     ((m = PMaxCap /\ maxc sI <= b /\ f b <> None) \/ (m = PClosure /\ f b = None))
    | OExtend n it | OExtendN it n => exists b, grow_pan n it b m tr sI sR
    | OExtendFor f n => exists b,
        (m = PMaxCap /\ 0 < n /\ maxc sI < b + n /\ eff tr = [AcAdd b n]) \/
        (m = PClosure /\ f b = None /\ eff tr = [AcAdd b n] /\ (0 < n -> b + n <= cap sR)) \/
        (m = PIterLen /\ (exists k it, f b = Some (k, it) /\ k <> n) /\ eff tr = [AcAdd b n] /\
         (0 < n -> b + n <= cap sR)) \/
        (exists it, f b = Some (n, it) /\ grow_pan n it b m tr sI sR)
    | OIndex i => m = POutOfBounds /\ eff tr = [] /\ exists n, lenres n tr sI sR /\ n <= i
    | OSlice rg => exists n, lenres n tr sI sR /\ over rg n m tr
    | OFillWith f => exists n, lenres n tr sI sR /\ writes_pan f 0 n m tr
    | OMap f => exists n, lenres n tr sI sR /\ reads_pan (stops f) 0 n m tr
    | OFilter f => exists n, lenres n tr sI sR /\ reads_pan (stops f) 0 n m tr
    | OFold init f => exists n, lenres n tr sI sR /\ reads_pan (fold_stops f init) 0 n m tr
    | OReduce f => exists n, lenres n tr sI sR /\ reads_pan (red_stops f) 0 n m tr
    | OSplitAt k => m = PAssert /\ eff tr = [] /\ exists n, lenres n tr sI sR /\ n < k
    | OChunks k => m = PAssert /\ k = 0 /\ eff tr = []
    | OElem i o => pan_elem i o m tr
    | OSl x o => pan_slice x o m tr
    | _ => False
    end.

  (** ** When a call may be made *)
  Definition grant_ok (s : shared) (g : grant) : Prop :=
    match g with
    | GElem i | GRef i => filledp s i
    | GSlice x => sl_a x + sl_len x <= wrtn s /\ sl_a x + sl_len x <= cap s /\ forall i, sl_a x <= i < sl_a x + sl_len x -> filledp s i
    end.

End Post.
