# A machine-checked model of orx-concurrent-vec

Prover: Coq 8.16.1, standard library only. Sources: `rocq/theories`, built with
`cd rocq && coq_makefile -f _CoqProject -o Makefile && make -j4`.

## 1. What is modelled

Every method of `ConcurrentVec`, `ConcurrentSlice` and `ConcurrentElement` is a *program*
(`Model/Prog.v`): a tree whose inner nodes are the atomic accesses the method makes to shared memory
(atomics, state bytes of elements, begin/end of value accesses, allocation) and whose leaves are a result or a
panic. Busy-wait loops are explicit (`Spin`). The programs are written function by function after the Rust
source; each definition cites file and lines.

| file | models |
| --- | --- |
| `Model/Prog.v` | programs, panics, faults (undefined behaviour) |
| `Model/Mem.v` | shared memory of one vector, effect of each atomic access (sequentially consistent), solo interpreter |
| `Model/Deps.v` | contracts of the external crates (orx-concurrent-option, orx-pinned-concurrent-col) |
| `Model/State.v` | src/state.rs |
| `Model/Elem.v` | src/elem.rs |
| `Model/Vec.v` | src/vec.rs, grow.rs, helpers.rs, mut_elem.rs, split.rs, iter_shorthands.rs, partial_eq.rs, to_vec.rs, unsafe_api.rs, concurrent_slice/*, common_traits/* |
| `Model/Excl.v` | src/exclusive.rs, new.rs, into_inner, to_vec, into_iter, growth policies |
| `Model/Machine.v` | any number of threads calling any methods: interleaving machine with history |
| `Model/Reentrant.v` | closures that call methods of the same vector: the methods that take closures once more, with a node where the user's code runs; threads with stacks of suspended calls |
| `Model/Several.v` | threads that share any number of vectors; `==` between vectors, slices and elements (common_traits/eq.rs) |
| `Model/Network.v` | closures that call methods of any of several vectors: one machine of `Reentrant.v` per vector, and for each thread the order of its unfinished calls over all vectors |
| `RA/*` | the same programs under a release/acquire view machine (orderings matter) |

The machine is a *most general client*: each thread may call any method with any argument at any time; the only
restriction is that a reference (`&ConcurrentElement`, `ConcurrentSlice`, `&T`) can be used only after a call
returned it. `clear`/`reserve_maximum_capacity` need `&mut self`, hence all threads idle. The history records
calls, returns, panics and, between them, what the atomic accesses did (which positions were reserved,
initialised, read, written).

Undefined behaviour is explicit: the machine steps to `Fault` on a data race (overlapping conflicting value
accesses, two threads allocating), an access outside the storage, a read of an uninitialised value, a second
initialisation of a position, or an ill-formed iterator range.

`usize` is `nat` with an arbitrary modulus `wmod`; `fetch_add` wraps; other arithmetic panics or wraps depending on
`ochk` (debug/release profile). The storage (`FixedVec`, `SplitVec`) is an arbitrary growth policy satisfying a
contract (`env_ok`), which is proved for the three policies of new.rs.

### Simplifications
* Closures passed by the user may panic and keep state (`f k` is what call number `k` of the closure does, for an
  arbitrary `f`). In `Machine.v` they do not call back into the same vector; in `Reentrant.v` they do; C45 carries
  the results over and C46 says what such calls wait for. `RA/WReentrant.v` is the same for release/acquire (C47, C53).
  There, closures may also synchronise with other threads; a mutex or a channel is a thread without calls that is
  synchronised with both ways.
* `Clone` returns an equal value and, like `PartialEq`, does not panic or call back (a `Clone` that does is a `map` with that closure). `Drop` of values is not modelled.
* Iterators returned by `iter()` are the list of elements they will yield; iterators that call a closure or clone
  (`iter_cloned`, `map`, `filter`, `chunks`, `iter_ref`) are modelled consumed to the end in one call. Lazy,
  partial consumption is covered by `iter()` plus element calls at arbitrary times.
* Memory addresses are not modelled: an element is its position; that growth does not move elements is the contract of
  pinned vectors.
* `PartialEq` between concurrent vectors (eq.rs:4-9, 17-29, 45-55), which uses elements of two vectors at once, is in
  `Several.v` only (C50), sequentially consistent, without `clear`, `reserve_maximum_capacity` and closures that call back. The dependency's
  comparison of two options is not available: see the trusted base.

* In `Network.v` (C51) all vectors have the same type of values. `==` between vectors is not in it. It is sequentially consistent; `RA/WNetwork.v` (C52) is
  the same for release/acquire, without what calls wait for.

## 2. Trusted base

* Coq's kernel (`coqchk` is run by the gate). Axioms: none; `Print Assumptions` answers "Closed under the global
  context" for every theorem of the `Properties/` files. (`coqchk` also lists `Coq.ssr.ssrunder.Under_rel.*`, an opaque
  module of Coq's own library that is loaded with `lia`/ssreflect; no theorem depends on it.)
* That the programs in `Model/` are the Rust methods. Only the crate's own source is in the repository.
* The dependency contracts in `Model/Deps.v`, `State.v` (`single_item_as_ref`, `n_items_buffer`), `Excl.v`:
  - `ConcurrentOption`: handle acquisition by `compare_exchange(init, RESERVED, Acquire, Relaxed)`, retried while
    RESERVED; dropping a handle stores the success state with Release, also on unwinding; `initialize_unchecked`
    writes the value then stores SOME with Release. Whether the public `mut_handle` (used by `swap`) waits
    is a parameter (`hspin`); theorems cover both. How two options are compared is a parameter of C50 (`eqmode`: wait for the handles of
    both, left first; try once; look without a handle). `get_mut` and `iter_mut` use `get_raw_mut()` without an ordering
    argument (unsafe_api.rs:367,423); it is modelled like `get_raw_mut_with_order(SeqCst)`.
  - `PinnedConcurrentCol`: bound check against the maximum capacity, then retry on `WritePermit::Spin`, `grow_to` on
    `GrowThenWrite`; `get(i)` checks `i < capacity`; growth fills new memory with `fill_memory_with` before the
    capacity is published; `clear(len)`/`into_inner(len)` require `len` initialised-or-empty elements inside the
    storage.
  - `vec_range_limits` limits both ends of a range to the length.
* The memory model: interleaving semantics (SC) for most properties; a view-based release/acquire machine
  for C40, C44, C47, C48, C52, C53, C54 and C49 (which relates the two). Compiler and hardware are not modelled.

Not modelled: allocation failure, `Drop`, `Send`/`Sync` as types (C39 is about the consequence), the README's
performance claims, `examples/`, `benches/`.

## 3. Proof architecture

1. `Client.v`: the disciplines (which calls a program may make) that theorems quantify over, and the contract of
   the storage (`env_ok`). `Spec.v`: small, self-contained definitions used in statements (positions of a call, order of
   calls, quiescence...). `Fair.v`: endless executions, fairness, bounds. `ListSem.v`: what each method means for a plain list (used by C27).
2. `Logic/{Inv,WP,Post,Specs,Ops}.v`: a rely/guarantee program logic for the interleaving machine. Each thread owns
   *tokens* (reserved positions not yet written, a position being initialised, locked elements). `Inv` ties the tokens of
   all threads to the shared state. `wp` says that a program, whatever other threads do, keeps `Inv`, never faults, and
   ends satisfying a postcondition that relates the state at the call, the accesses it made, and the state at the return.
   One `wp` lemma per method.
3. `Logic/{Sound,Shape,Clients,Hist,Locks,Facts,Visits,Complete,Lawful,Lin,Trace,Stuck,Progress,Live,Cost,Gaps}.v`: every reachable
   configuration satisfies the global invariant; in particular the history is *well explained*: every return satisfies its
   method's postcondition, snapshots grow monotonically, and the history of value accesses is a legal history of an
   array of registers.
4. `Seq.v`, `Lists.v`, `Logic/{Single,SingleOps,Solo}.v`: one thread alone: the solo interpreter and the machine agree, and the
   results are those of `ListSem.v`.
5. `RA/*.v`: the view machine and a second, smaller program logic of the same kind for it (`WInv` invariant, `WStep`/`WSlots` one
   lemma per atomic access, `WSpecs`/`WOps` methods, `WSound` soundness). `WTrace` adds the history of an execution; `WPath` reads the accesses and the results
   of a call off the paths of its program; `WHist` combines both: the history is possible for the abstract vector
   (`Logic/Lawful.v`), which is all that `Lin` and `Trace` need. `WLocks` adds who holds which element and which position,
   `WLive` derives what calls wait for and when they end (vocabulary: `WFair`). `WSimul`: the view machine can do what the interleaving machine does.
6. `Nested.v`, `Logic/{Reentry,Borrows,Nesting,Inner}.v`: executions with closures that call back are simulated by executions
   in which each nested call is made by a thread of its own (`Reentry`); how calls nest and what the closures hold (`Nesting`);
   what a suspended call has done so far, hence still holds, and for what an inner call can wait (`Inner`).
7. `Compare.v`, `Logic/{Project,Compares}.v`: what one of several vectors sees is an execution with closures that call back (`Project`);
   moments at which the two elements of a pair have their values, threads alone, threads that wait for each other (`Compares`).
8. `Net.v`, `Logic/Network.v`: the calls of a thread over all vectors against the stacks of the machines of the vectors; what
   calls have left to do decreases (`C51_ends`).
9. `RA/{WNetwork,WProject,WFlow,WStacks}.v`: several vectors over the view machine. What one vector sees is an execution of the view machine
   with closures that call back, in which the other vectors are further synchronisation (`WProject`); what is known of one vector flows with the stores
   of another one (`WFlow`); the unfinished calls of a thread over all vectors are the stacks of the vectors (`WStacks`).
   `RA/WWaits.v` is the counterpart of `Inner` for the view machine (C53), `RA/WCross.v` adds the waits over several vectors (C54).
   `Logic/Holding.v` and `RA/WHolding.v` show that a call refers to a value only while it has the handle, and that nobody else reads or changes the value meanwhile (without `unsafe` methods); `RA/WDead.v` uses this for values that are lent to closures and for calls that never end (C53_exclusive, C53_deadlock, C54_deadlock).
10. `Properties/*.v`: the theorems (`Cnn_...`), each with concrete examples that meet its hypotheses, or that show
   the opposite when a hypothesis is dropped.

## 4. Per property plan

| id | modelled | proof |
| --- | --- | --- |
| C01 | returned positions in histories | history invariant: reservations are consecutive intervals |
| C02 | `AcInit` accesses and returns | wp postcondition of growth calls + single initialisation invariant |
| C03 | quiescent configurations, `to_vec` | global invariant + history coherence |
| C04 | order of return and call events | reservations in history order |
| C05 | `push_for_idx`, `extend_for_idx` | wp postcondition |
| C06 | `len` and users of it; element panics | wp with "filled stays filled"; panics PHasValue/PSet/PUpdate unreachable |
| C07 | returns of `len` | `len_written` is monotone and bounds |
| C08 | quiescent states | wp postcondition of `len` (why the scan stopped) + invariant |
| C09 | `len` with/without overlapping element calls | positive theorem; `_refuted` by an execution |
| C10 | no reachable `Fault` | soundness of wp |
| C11 | linearization of element calls | history of accesses is a register-array history; one access per call |
| C12 | value conservation | follows from coherence; multiset statement for replace/swap |
| C13 | `get_cloned` after a completed growth call | filled monotone + coherence |
| C14 | `get`/index after push | `_refuted` execution; positive theorem when all earlier positions are written |
| C15 | growth exclusivity, capacity | invariant (owner of position `capacity`) |
| C16 | max capacity panics | wp panic postcondition |
| C17 | panicking closures | wp: no token left; element unlocked |
| C18 | gaps after panics | dead positions invariant, for all continuations |
| C19 | push_for_idx panic at the boundary | dead position at capacity: growth blocked in all continuations |
| C20 | busy-waiting | blame theorem from the invariant at `Spin`; refutation of lock-freedom |
| C21 | deadlock freedom, solo termination, fair executions | invariant: waiting threads hold nothing |
| C22 | swap | wp: two tokens, one `AcSwap` access |
| C23 | swap(i,i), opposite swaps | all-continuation invariants of witness states |
| C24 | iteration | wp: accesses are exactly positions 0..n-1 in order |
| C25 | slices | wp + range arithmetic |
| C26 | split/chunks | wp + arithmetic |
| C27 | solo runs | refinement to list operations |
| C28 | search, equality, debug | solo refinement; concurrent part by wp |
| C29 | map/filter/fold/reduce | solo refinement |
| C30 | clear, reserve | state functions |
| C31 | conversions | state functions + C03 |
| C32 | from_iter with hints | solo refinement |
| C33 | capacity policies | arithmetic; they satisfy `env_ok` |
| C34 | grow + read with unsafe references | second instance of the logic: no writers, readers unrestricted |
| C35 | hazard | execution reaching `FRace` |
| C36 | wrap-around | execution for every `wmod` |
| C37 | empty elements | execution |
| C38 | length handed to the pinned vector | invariant + execution |
| C39 | values move between threads | execution; type bounds themselves cannot be expressed |
| C40 | weak memory | invariant of the view machine; examples with weaker orderings that do fault |
| C41 | slices with inverted ranges | execution reaching a fault; positive theorem with overflow checks |
| C42 | numbers of steps | programs are finite trees: bound on the depth kept along executions; who can wait (C20) |
| C43 | endless fair executions | induction on the reserved position; periodic execution as counterexample |
| C44 | histories of the view machine | possible histories (`Lawful`), then the proofs of C01-C04, C11, C12, C24 again |
| C45 | stacks of calls | simulation into the flat machine; invariant on borrows of suspended calls |
| C46 | what inner calls wait for | accesses of a suspended call against the program it has left; C20 through the simulation |
| C47 | stacks of calls, view machine | simulation into the flat view machine; invariant on the views at the events of a thread |
| C48 | waiting and progress, view machine | invariant on holders of elements and positions; a blocked call has a holder; well-founded order on the programs left |
| C49 | both machines | simulation: if every load reads the newest message, the view machine follows the interleaving machine |
| C50 | several vectors | each vector's part is simulated by the machine of C45; invariant on the program left of a comparison |
| C51 | closures that use other vectors | each vector is an execution of the machine of C45; waits of C46 followed up the order of vectors |
| C52 | the same, view machine | each vector is an execution of the machine of C47 with more synchronisation; invariant on what the messages of an element of one vector carry about another vector |
| C53 | what inner calls wait for, view machine | the blocked call and its holder of the flat machine, traced back to the stacks; a suspended owner of the first position beyond the capacity keeps the capacity as it is; a suspended call keeps the handle of the element it lends |
| C54 | what calls wait for over several vectors, view machine | C53 on the vector of the innermost call; waits followed up the order of vectors; what is left of the programs decreases; calls that need a lent element do not reach it |

Names: a theorem ending in `_refuted` shows that the literal property fails for the modelled code and
exhibits the execution; `_partial` means that part of the English property is missing (said in MANIFEST.json).
