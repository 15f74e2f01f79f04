{"id": "C01", "title": "Growth calls never share a position", "statement": "The position ranges handed out by completed push / push_for_idx / extend / extend_for_idx / extend_n_items calls ([i,i+1) for a push that returned i, [b,b+n) for an extend of n items that returned b) are pairwise disjoint, and disjoint from the positions the vector was created with.", "quantifier": "every number of threads, every interleaving of their atomic accesses, every sequence of API calls each thread makes, as long as fewer than usize::MAX+1 positions were requested in total and since the last clear()", "why_tests_cant": "A duplicate position needs one particular interleaving of two growth calls; tests sample a few schedules.", "anchors": ["src/grow.rs: push, push_for_idx, extend, extend_for_idx, extend_n_items", "src/helpers.rs: len_reserved"]}
{"id": "C02", "title": "A growth call puts its values at the positions it returns", "statement": "When push(v) returns i, position i was made available with value v during the call and no other call ever initialises i; when extend returns b for items v0..v(n-1), position b+k was initialised with vk, consecutively and in order.", "quantifier": "every number of threads, every interleaving of their atomic accesses, every sequence of API calls each thread makes, every iterator content", "why_tests_cant": "The value could be lost or misplaced only in specific interleavings with other writers or with growth of the storage.", "anchors": ["src/grow.rs", "src/state.rs: write_permit, write_permit_n_items"]}
{"id": "C03", "title": "Nothing is lost or duplicated", "statement": "When all threads are idle and no growth call has panicked, to_vec() has exactly as many elements as positions were requested (plus the initial ones); every element is at the position its growth call returned, and (if no element was overwritten) equals the value pushed.", "quantifier": "every number of threads, every interleaving of their atomic accesses, every sequence of API calls each thread makes, ending in any quiescent state", "why_tests_cant": "Conservation over all histories cannot be enumerated.", "anchors": ["src/to_vec.rs: to_vec", "src/vec.rs: into_inner", "src/grow.rs"]}
{"id": "C04", "title": "Growth respects real-time order", "statement": "If one growth call returned before another growth call started, every position of the first is smaller than every position of the second.", "quantifier": "every pair of growth calls in every history of every schedule", "why_tests_cant": "Depends on the relative order of atomic operations of arbitrarily many threads.", "anchors": ["src/grow.rs: push (\"preserves the order ... with respect to the order the push method is called\")"]}
{"id": "C05", "title": "Index-dependent growth sees its own index", "statement": "push_for_idx(f) stores f(i) at exactly the returned index i, and extend_for_idx(f,n) stores the items of f(b) at b..b+n for the returned b, even when other growth calls are concurrent.", "quantifier": "every number of threads, every interleaving of their atomic accesses, every sequence of API calls each thread makes, every closure", "why_tests_cant": "A race between reserving and computing the value would only show under particular schedules.", "anchors": ["src/grow.rs: push_for_idx, extend_for_idx"]}
{"id": "C06", "title": "Every position below len() is initialised, forever", "statement": "If len() (or iter, as_slice, slice, get, index which use it) reports that position i exists, then position i holds a value from then on: element methods on it never observe an empty element and never panic with 'ConcurrentElement must always have a value', 'Failed to set' or 'Failed to update'.", "quantifier": "every number of threads, every interleaving of their atomic accesses, every sequence of API calls each thread makes", "why_tests_cant": "Publication bugs (reporting a reserved but unwritten position) need precise timing of a slow writer.", "anchors": ["src/vec.rs: len, get, iter, slice", "src/elem.rs: cloned, map, replace, set, update, HAS_VALUE"]}
{"id": "C07", "title": "len() never goes backwards", "statement": "If a call of len() that returned m completed before another call of len() started, on any threads, the second returns at least m.", "quantifier": "every pair of len() calls in every history of every schedule", "why_tests_cant": "Monotonicity across threads depends on the fetch_max publication under all interleavings.", "anchors": ["src/vec.rs: len"]}
{"id": "C08", "title": "len() is exact at rest and never exceeds what was requested", "statement": "len() never exceeds the number of positions requested by growth calls that have started (plus initial elements), and equals it when all growth calls have completed without panicking and no other call is running.", "quantifier": "every number of threads, every interleaving of their atomic accesses, every sequence of API calls each thread makes", "why_tests_cant": "Exactness is about all quiescent states of all histories.", "anchors": ["src/vec.rs: len, is_empty"]}
{"id": "C09", "title": "len() is up to date with completed pushes", "statement": "len() returns at least m whenever all positions below m were completely pushed before the call started. (True when no thread is accessing an element during the call; refuted in general: a concurrent read of an element hides it from len.)", "quantifier": "every number of threads, every interleaving of their atomic accesses, every sequence of API calls each thread makes", "why_tests_cant": "The counterexample needs a reader holding an element exactly while len() scans it.", "anchors": ["src/vec.rs: len (is_some_with_order)", "orx-concurrent-option: is_some_with_order"]}
{"id": "C10", "title": "The safe API has no undefined behaviour", "statement": "No use of the safe API (growth, reads, element updates, slices, iterators, swap, fill), from any number of threads, leads to overlapping conflicting accesses to a value, to reading uninitialised memory, to an access beyond the allocated storage, to re-initialising a position, to an inverted iterator range or to two threads growing the storage at once.", "quantifier": "every number of threads, every interleaving of their atomic accesses, every sequence of API calls each thread makes, provided total requested positions fit usize and ranges passed to slice are not inverted (or overflow checks are on)", "why_tests_cant": "Absence of data races over all schedules is not testable.", "anchors": ["src/vec.rs", "src/grow.rs", "src/elem.rs", "src/mut_elem.rs", "src/helpers.rs", "src/state.rs"]}
{"id": "C11", "title": "Element operations are linearizable; no update is lost", "statement": "cloned, copied, map, replace, set, update and get_cloned on any positions, together with pushes, take effect atomically at one instant between call and return: reads return the latest value, updates apply to the latest value, replace returns exactly the value it overwrote.", "quantifier": "every number of threads, every interleaving of their atomic accesses, every sequence of API calls each thread makes, every update closure", "why_tests_cant": "Lost updates and torn read-modify-write need adversarial schedules.", "anchors": ["src/elem.rs", "src/vec.rs: get_cloned"]}
{"id": "C12", "title": "Values are conserved by replace/set/update/swap", "statement": "Over any history, the value read out by replace/overwritten by set is the one most recently stored at that position; no value is returned twice and none appears from nowhere; swap permutes values.", "quantifier": "every number of threads, every interleaving of their atomic accesses, every sequence of API calls each thread makes", "why_tests_cant": "Conservation is a statement about all histories.", "anchors": ["src/elem.rs: replace, set", "src/mut_elem.rs: swap"]}
{"id": "C13", "title": "A completed push is immediately readable by get_cloned", "statement": "If a growth call covering position i completed before get_cloned(i) / get_copied(i) starts, the latter returns Some, and Some(v) with v the pushed value if no update touched i.", "quantifier": "every number of threads, every interleaving of their atomic accesses, every sequence of API calls each thread makes", "why_tests_cant": "Visibility of completed writes over all schedules.", "anchors": ["src/vec.rs: get_cloned, get_copied, reserved_len"]}
{"id": "C14", "title": "get(i) is available right after push returned i (refuted)", "statement": "After i = push(v) returned, get(i) is Some and vec[i] does not panic; get_cloned(i) is a shorthand for get(i).map(cloned). This is false: while an earlier reserved position is still being written, len() stays below i, so get(i) is None and vec[i] panics although get_cloned(i) is Some(v). It holds once all earlier positions are written.", "quantifier": "existential over schedules (refutation), universal for the positive part", "why_tests_cant": "Needs a writer suspended between reserving and writing.", "anchors": ["src/vec.rs: get, get_cloned docs", "src/common_traits/index.rs"]}
{"id": "C15", "title": "Storage growth is exclusive and harmless", "statement": "At any time at most one thread is growing the storage; capacity never decreases and never exceeds maximum_capacity; growth never changes, moves or hides an existing element.", "quantifier": "every number of threads, every interleaving of their atomic accesses, every sequence of API calls each thread makes, every growth policy meeting the stated contract", "why_tests_cant": "Two concurrent growers need an interleaving at the capacity boundary.", "anchors": ["src/state.rs: write_permit, write_permit_n_items, fill_memory_with", "src/vec.rs: capacity, maximum_capacity"]}
{"id": "C16", "title": "Growth beyond the maximum capacity panics and damages nothing", "statement": "A growth call panics with out-of-capacity exactly when one of the positions reserved for it is at or beyond maximum_capacity; existing elements and their positions are unaffected; a completed growth call only returns positions below maximum_capacity.", "quantifier": "every number of threads, every interleaving of their atomic accesses, every sequence of API calls each thread makes", "why_tests_cant": "Race for the last positions.", "anchors": ["src/grow.rs: # Panics", "src/new.rs: with_fixed_capacity"]}
{"id": "C17", "title": "A panic inside an element closure does not poison the element", "statement": "If the closure passed to map/update/fold/filter/... panics, the element is released: its value is the one left by the closure, and other threads can go on using it.", "quantifier": "every number of threads, every interleaving of their atomic accesses, every sequence of API calls each thread makes, every closure and every panic point", "why_tests_cant": "Every crash point of every closure.", "anchors": ["src/elem.rs: map, update", "orx-concurrent-option: MutHandle drop"]}
{"id": "C18", "title": "A panicking growth call leaves a permanent gap", "statement": "If a growth call panics after reserving positions (short iterator, wrong extend_for_idx length, panicking closure, out of capacity), the unwritten reserved positions stay empty forever: len() never exceeds the first one in any continuation, although later pushes succeed and are readable by get_cloned, and to_vec()/into_iter() panic. ('The vector remains fully usable' is refuted.)", "quantifier": "every continuation of every history with such a panic", "why_tests_cant": "Statement about all futures after a crash point.", "anchors": ["src/grow.rs: extend_n_items, extend_for_idx, push_for_idx", "src/to_vec.rs", "src/common_traits/into_iter.rs"]}
{"id": "C19", "title": "A panicking push_for_idx closure can block all growth forever (refutation of recovery)", "statement": "push_for_idx evaluates the closure between reserving its index and making room for it. If the reserved index equals the capacity and the closure panics, every later push/extend on every thread spins forever, in every schedule.", "quantifier": "all continuations after the panic; existence of such a panic", "why_tests_cant": "Non-termination in all futures cannot be observed by a test.", "anchors": ["src/grow.rs: push_for_idx", "src/state.rs: write_permit"]}
{"id": "C20", "title": "Who can block whom", "statement": "A call can only be delayed in a busy-wait by (a) another running call that is inside an element operation on the very same element, (b) a running growth call that reserved the position at the capacity boundary, (c) an abandoned reservation there, or (d) itself, in swap(i,i). In particular a stalled thread can block others: the vector is not lock-free (refuted).", "quantifier": "every number of threads, every interleaving of their atomic accesses, every sequence of API calls each thread makes", "why_tests_cant": "Blocking is a property of all futures.", "anchors": ["src/state.rs: write_permit", "orx-concurrent-option: mut_handle", "README: lock-free"]}
{"id": "C21", "title": "No deadlock without swap", "statement": "If no swap is used and no growth call panicked without having made room (beyond the maximum capacity, or in the closure of push_for_idx), then whenever some call is unfinished, at least one thread can take a step that is not a busy-wait iteration; and a call running alone from a state where all other threads are idle always returns or panics after finitely many steps. Hence in every fair endless execution in which no further calls are started all running calls end.", "quantifier": "every number of threads, every interleaving of their atomic accesses, every sequence of API calls each thread makes", "why_tests_cant": "Deadlock freedom over all reachable states.", "anchors": ["src/elem.rs", "src/grow.rs"]}
{"id": "C22", "title": "swap exchanges two elements atomically", "statement": "swap(i,j) returning true exchanged the two values in one atomic step; returning false changed nothing; false is only returned if an index was not below len() as observed during the call.", "quantifier": "every number of threads, every interleaving of their atomic accesses, every sequence of API calls each thread makes", "why_tests_cant": "Atomicity over two elements.", "anchors": ["src/mut_elem.rs: swap", "src/concurrent_slice/mut_elem.rs: swap"]}
{"id": "C23", "title": "swap always terminates (refuted)", "statement": "swap(i,i) with i in bounds, documented to return true, never returns; swap(i,j) and swap(j,i) on two threads can deadlock forever.", "quantifier": "all continuations of the witness states", "why_tests_cant": "Non-termination in all futures.", "anchors": ["src/mut_elem.rs: swap", "src/helpers.rs: mut_handle"]}
{"id": "C24", "title": "iter() is a stable snapshot of positions", "statement": "iter()/iter_cloned()/map/filter/fold/reduce/fill/index_of/clone_to_vec visit exactly the positions 0..n-1, once each and in increasing order, where n is the len() taken at the start, regardless of concurrent growth and updates; slice variants visit exactly the slice's positions.", "quantifier": "every number of threads, every interleaving of their atomic accesses, every sequence of API calls each thread makes", "why_tests_cant": "All interleavings with growth.", "anchors": ["src/vec.rs: iter, iter_cloned", "src/iter_shorthands.rs", "src/concurrent_slice/slice.rs: iter"]}
{"id": "C25", "title": "Slices denote exactly the requested range", "statement": "slice(r) of a vec/slice of length n denotes positions [min(start,n), min(end,n)) of it; nested slicing composes; a slice's length never changes, it only ever accesses its own positions, all of which are initialised, even while the vector grows.", "quantifier": "all ranges, nesting depths and schedules", "why_tests_cant": "Range arithmetic over all bounds.", "anchors": ["src/vec.rs: slice, as_slice", "src/concurrent_slice/slice.rs: slice, get, idx"]}
{"id": "C26", "title": "split_at, split_first, split_last and chunks partition", "statement": "split_at(m) yields [0,m) and [m,len); split_first/split_last yield the first/last element and the rest, None iff empty; chunks(k) yields consecutive disjoint slices covering everything, all of length k except possibly a shorter non-empty last one; they panic exactly on m > len and k = 0, also under concurrent growth.", "quantifier": "all lengths, split points, chunk sizes; all schedules for the vec versions", "why_tests_cant": "Arithmetic over unbounded sizes; vec versions call len() repeatedly while other threads push.", "anchors": ["src/split.rs", "src/concurrent_slice/split.rs"]}
{"id": "C27", "title": "Single-threaded behaviour is that of a Vec", "statement": "For a vector not shared with other threads, every method's result and effect is the corresponding one on a mathematical list: push appends, len is exact, get/replace/set/update/swap/fill/slice operate on the list.", "quantifier": "every sequence of operations, every content", "why_tests_cant": "Refinement over all operation sequences.", "anchors": ["src/*.rs"]}
{"id": "C28", "title": "Search, comparison and formatting agree with the list of values", "statement": "index_of returns the first equal position, contains iff index_of is Some, == with arrays/slices/vectors is elementwise equality with equal length, Debug prints the values in order, separated, in brackets.", "quantifier": "all contents and all PartialEq implementations (reflexive or not)", "why_tests_cant": "Universally quantified over contents and equality.", "anchors": ["src/partial_eq.rs", "src/common_traits/eq.rs", "src/common_traits/debug.rs", "src/concurrent_slice/partial_eq.rs"]}
{"id": "C29", "title": "map/filter/fold/reduce agree with the list functions", "statement": "On a vector at rest: map is List.map, filter yields exactly the elements satisfying the predicate in order, fold is the left fold, reduce is the left fold of the tail onto the first element (None iff empty).", "quantifier": "all contents and closures, also closures that keep state between calls (the k-th call is applied to the k-th element)", "why_tests_cant": "Universal over contents and closures.", "anchors": ["src/iter_shorthands.rs", "src/concurrent_slice/iter_shorthands.rs"]}
{"id": "C30", "title": "Exclusive operations", "statement": "clear() empties the vector, keeps capacity and makes it behave as a new one with that capacity; reserve_maximum_capacity() changes no element and never lowers the maximum capacity.", "quantifier": "all quiescent states", "why_tests_cant": "All reachable states, including ones with gaps.", "anchors": ["src/exclusive.rs"]}
{"id": "C31", "title": "Conversions preserve contents", "statement": "On a gap-free vector, into_inner/to_vec/into_iter yield exactly the values in order; clone and clone_to_vec give the same values; From<pinned vec> and FromIterator give vectors with exactly the given values.", "quantifier": "all contents, capacities, growth policies", "why_tests_cant": "Universal.", "anchors": ["src/to_vec.rs", "src/common_traits/into_iter.rs", "src/common_traits/clone.rs", "src/common_traits/from_iter.rs", "src/new.rs"]}
{"id": "C32", "title": "FromIterator and size hints", "statement": "collect() yields exactly the iterator's items whenever the size hint is correct; if an exact size hint is smaller than the number of items, the rest is silently dropped, if larger it panics.", "quantifier": "all iterators and hints", "why_tests_cant": "All hints.", "anchors": ["src/common_traits/from_iter.rs"]}
{"id": "C33", "title": "Capacity policies", "statement": "with_fixed_capacity(n), with_linear_growth(e,f) and with_doubling_growth() reach exactly maximum capacities n, f*2^e and 4*(2^32-1) and never fail to grow below them.", "quantifier": "all parameters and target sizes", "why_tests_cant": "Arithmetic over all sizes.", "anchors": ["src/new.rs", "orx-split-vec, orx-fixed-vec"]}
{"id": "C34", "title": "Grow-and-read use of the unsafe references is race free", "statement": "If only growth and read operations are used (no set/replace/update/swap/fill/get_mut), then dereferencing &T obtained from get_ref/iter_ref/get_raw at any later time, concurrently with growth and with thread-safe reads, never races, never reads uninitialised memory and always yields the pushed value.", "quantifier": "every number of threads, every interleaving of their atomic accesses, every sequence of API calls each thread makes", "why_tests_cant": "docs/GrowRead.md claims data-race freedom over all schedules.", "anchors": ["src/unsafe_api.rs: get_ref, iter_ref, get_raw", "docs/GrowRead.md"]}
{"id": "C35", "title": "Unsafe references race with updates (documented hazard)", "statement": "Dereferencing &T from get_ref while another thread calls set/replace/update can be a data race.", "quantifier": "existence of a schedule", "why_tests_cant": "A test may never hit it.", "anchors": ["src/unsafe_api.rs: ## Unsafe Bits"]}
{"id": "C36", "title": "usize wrap-around breaks position uniqueness (refuted)", "statement": "extend_n_items is safe to call with any num_items. A call with num_items = usize::MAX (which panics) wraps the reservation counter, after which the next push is given a position that already holds an element.", "quantifier": "existence, for every usize width", "why_tests_cant": "Needs 2^64-scale arguments plus panic recovery.", "anchors": ["src/grow.rs: extend_n_items"]}
{"id": "C37", "title": "Elements built from an empty ConcurrentOption break the element invariant (refuted)", "statement": "ConcurrentElement: From<ConcurrentOption<T>> is public, so a pinned vector can hold an empty element; converting it into a ConcurrentVec gives a vector with len() counting it, on which cloned() panics with 'must always have a value'.", "quantifier": "existence", "why_tests_cant": "Requires the unusual construction.", "anchors": ["src/elem.rs: From<ConcurrentOption<T>>", "src/new.rs: From<P>"]}
{"id": "C38", "title": "The length passed on by into_inner/clear is within the allocated storage (refuted after over-capacity panics)", "statement": "into_inner() and clear() tell the pinned vector that len_reserved elements exist. Without growth panics this is within the capacity and all elements are initialised; after a growth call panicked because of the maximum capacity, the number exceeds the allocated capacity.", "quantifier": "all quiescent states (positive part), existence (refutation)", "why_tests_cant": "Needs catching the panic and then converting.", "anchors": ["src/vec.rs: into_inner", "src/exclusive.rs: clear", "src/state.rs: try_get_no_gap_len"]}
{"id": "C39", "title": "Values move between threads", "statement": "A value pushed by one thread can be moved out by another thread with replace; the library's Sync impl only asks T: Sync, so T: Send is needed for soundness but not required.", "quantifier": "existence of a history", "why_tests_cant": "Type-level bound, not testable.", "anchors": ["src/vec.rs: unsafe impl Sync", "src/elem.rs: replace"]}
{"id": "C40", "title": "Safety under the release/acquire memory model", "statement": "The guarantees on positions below len() (initialised, well-formed scan range) and data-race freedom of growth, len, get, get_cloned and element operations hold for the atomic orderings actually used in the code, not only under sequential consistency: relaxed reads may be stale.", "quantifier": "every execution of a release/acquire view machine (stale relaxed reads, every choice of message read)", "why_tests_cant": "Weak-memory outcomes depend on hardware/compiler and cannot be enumerated by tests.", "anchors": ["src/vec.rs: len (Acquire/Relaxed/Release)", "src/grow.rs: fetch_add(Relaxed)", "src/unsafe_api.rs: SeqCst loads"]}
{"id": "C41", "title": "Inverted slice ranges (refuted without overflow checks)", "statement": "slice(range) returns a view of elements of the vector, or panics. For a range whose start lies behind its end it panics only in builds with overflow checks; in builds without them it returns a slice that claims almost 2^64 elements, and the safe call iter() on this slice asks the storage for elements outside of the allocation.", "quantifier": "every vector at rest, every inverted range within the length, every usize width", "why_tests_cant": "The behaviour differs by build profile; tests run with overflow checks.", "anchors": ["src/vec.rs: slice", "src/concurrent_slice/slice.rs: iter"]}
{"id": "C42", "title": "Bounded numbers of steps", "statement": "A call makes a bounded number of steps (bound given in terms of the arguments and the maximum capacity) apart from rounds of busy-waiting, whatever other threads do. Calls that neither lock elements nor reserve positions (len, get, iter, slice, split_at, ...) never wait, hence are wait-free: they end after a bounded number of steps of their own thread. So is a growth call whose first position is at most the capacity.", "quantifier": "every number of threads, every interleaving of their atomic accesses, every sequence of API calls each thread makes", "why_tests_cant": "Wait-freedom is about all schedules, including ones in which other threads stop at the worst moment.", "anchors": ["src/vec.rs: len, get", "src/elem.rs", "src/grow.rs: push, extend", "src/concurrent_slice/slice.rs"]}
{"id": "C43", "title": "Starvation (refuted for element methods)", "statement": "In a fair endless execution (no thread stops for ever in the middle of a call) in which no growth call panics without having made room (beyond the maximum capacity, or in the closure of push_for_idx), every growth call ends, whatever calls the other threads keep making. For methods that lock elements this is false: there is a fair endless execution in which set() on an element never ends, because another thread clones the element over and over again.", "quantifier": "every endless fair execution, every number of threads, every interleaving of their atomic accesses, every sequence of API calls each thread makes", "why_tests_cant": "Starvation needs infinite executions.", "anchors": ["src/grow.rs", "src/elem.rs: set, cloned", "external orx-concurrent-option: mut_handle"]}
{"id": "C44", "title": "Functional correctness under release/acquire", "statement": "With the atomic orderings in the code, and relaxed loads that may return old values, the calls still do what they do under sequential consistency: growth calls get disjoint positions in real-time order and store exactly their values; nothing is lost; set, replace, update, map, swap, push and successful get_cloned calls are linearizable; values are conserved; methods that go over the elements read each position once, in order, and return the function of the values they read. Exception: get_cloned may return None although the push of the element returned before in real time (without happens-before).", "quantifier": "every execution of a release/acquire view machine with any number of threads and calls", "why_tests_cant": "Weak-memory outcomes depend on hardware and compiler; all of them have to be considered.", "anchors": ["src/grow.rs: fetch_add(Relaxed)", "src/vec.rs: len, get_cloned", "src/elem.rs", "src/mut_elem.rs: swap, fill", "src/iter_shorthands.rs"]}
{"id": "C45", "title": "Closures that call back into the vector", "statement": "The closures given to map, filter, fold, reduce, update, fill_with, push_for_idx, extend_for_idx, and the iterators given to extend, may call any &self method of the same vector, to any depth. This never breaks memory safety, also not when a closure that has a `&mut T` calls methods on the same element; every statement about histories without such calls holds with each nested call regarded as a call of a thread of its own. Calls nest properly: a call ends only after the calls made inside its closures, and makes no access while its closure runs. While a closure borrows the value of an element, no other call initialises or changes it. A nested call that uses the element its closure was lent (directly or by the closure of any enclosing call) never returns: it waits for its own thread for ever; likewise two threads whose closures use each other's elements. Nested calls of methods that do not wait (C42) still end within a bounded number of own steps.", "quantifier": "every number of threads, every depth of nesting, every interleaving, every answer (or panic) of every closure, every growth policy", "why_tests_cant": "What closures do is unbounded user code; deadlocks and borrows of two calls of one thread depend on nesting and on other threads.", "anchors": ["src/elem.rs: map, update", "src/iter_shorthands.rs", "src/concurrent_slice/iter_shorthands.rs", "src/mut_elem.rs: fill_with", "src/grow.rs: push_for_idx, extend_for_idx, extend_n_items"]}
{"id": "C46", "title": "What calls made inside closures wait for", "statement": "A call that waits, inside closures or not, waits for one of: an element that was lent to a closure it is inside of; an element used by a call of another thread that is either the innermost one of its thread or lends that element to its closure; room beyond the capacity, while the first position beyond it is reserved by the innermost growth call of another thread or by a push_for_idx whose closure is running (possibly the one the call is inside of), or was abandoned by a growth call that panicked without having made room; itself (swap(i, i)). In particular fill_with holds no element, and the extend methods no unwritten position, while user code runs. A growth call reserves its positions before its closure runs: the growth calls made inside get later ones. Hence push_for_idx(|_| vec.push(x)) on a full vector never returns: the inner push waits for room that only the outer call can make; on a vector with room for the outer value it does return. When no other thread has calls, a call made inside closures ends if it uses no lent element and, for a growth call, no growth call has panicked without having made room and the enclosing push_for_idx calls have room.", "quantifier": "every number of threads, every depth of nesting, every interleaving, every answer (or panic) of every closure, every growth policy", "why_tests_cant": "Whether a nested call hangs depends on the fill level at which the outer reservation happened and on what every suspended call of every thread holds; a test sees single fill levels and cannot tell slow from never.", "anchors": ["src/grow.rs: push_for_idx, extend, extend_n_items", "src/elem.rs: map, update", "src/mut_elem.rs: fill_with", "src/iter_shorthands.rs", "src/concurrent_slice/iter_shorthands.rs"]}
{"id": "C47", "title": "Closures that call back into the vector, under release/acquire", "statement": "With the memory orderings of the code, closures may still call any method of the same vector, to any depth, and synchronise with other threads (mutexes, channels) while they run. There is no data race and no access out of bounds; a thread can always go on; calls nest; a value lent to a closure does not change while the closure is inside a call, and a value lent to the closure of update is not read either. The calls of one thread are ordered as they are made, in closures or not: what a call has seen or done when it returns is known to every call that the thread makes later, and what a thread learns from another one inside a closure is known to the rest of the calls around it. So an element pushed in a closure (or by another thread that the closure waited for) is found by the later calls of the closure and of the code around it, and lengths do not go back. Every statement about histories and results without such calls (C40, C44) holds with each depth of a thread regarded as a thread of its own.", "quantifier": "every number of threads, every depth of nesting, every interleaving, every choice of the messages that loads read, every answer (or panic) of every closure, every growth policy", "why_tests_cant": "Hardware of the test machine is stronger than release/acquire, the choice of stale reads is not under control of a test, and closures are unbounded user code.", "anchors": ["src/elem.rs: map, update", "src/state.rs", "src/iter_shorthands.rs", "src/concurrent_slice/iter_shorthands.rs", "src/mut_elem.rs: fill_with", "src/grow.rs: push_for_idx, extend_for_idx, extend_n_items"]}
{"id": "C48", "title": "Waiting and progress under release/acquire", "statement": "With the memory orderings of the code: a call that busy-waits although it reads the newest stores waits for an element that a running call of another thread holds, or for room beyond the capacity while the first position beyond it belongs to a running growth call of another thread or to a growth call that panicked without having made room, or it is swap(i, i). In the first two cases it waits as long as the other thread makes no step, so the vector is not lock-free. A call that is alone ends. If no running call is a swap and no growth call panicked without having made room, some thread can always go on and all running calls can end; they do end in every execution in which threads do not stop inside calls and stores become visible some time. Growth calls do not starve under the same assumption, whatever the other threads do. Every call makes a bounded number of steps that are not rounds of a busy-wait; calls that neither lock elements nor reserve positions (len, get, iter, slice, ...) never wait, even if they read old stores, and end within a bounded number of steps of their thread. Visibility is needed: a push that keeps reading an old capacity does not end.", "quantifier": "every number of threads, every interleaving, every choice of the messages that loads read (newest ones only where said), every closure and iterator, every growth policy, finite and endless executions", "why_tests_cant": "Liveness is about endless executions, and the choice of stale reads is not under control of a test; a test can neither stall a thread at every point nor tell slow from never.", "anchors": ["src/state.rs: write_permit", "orx-concurrent-option: mut_handle", "README: lock-free", "src/vec.rs: len, get", "src/elem.rs", "src/grow.rs: push, extend", "src/concurrent_slice/slice.rs", "src/grow.rs", "src/elem.rs: set, cloned", "external orx-concurrent-option: mut_handle"]}
{"id": "C49", "title": "Release/acquire allows at least the interleavings", "statement": "Everything that can happen when the atomic accesses of the threads are executed one after the other (each seeing the latest store) can also happen under the release/acquire memory model, without any help by synchronisation outside of the vector: same calls, results, panics, reservations, reads, writes and exchanges in the same order, same running calls, same contents; endless fair executions have fair counterparts. Hence what is refuted for interleavings is refuted for the weaker model: a completed push may be invisible to get, [] and len even for the pushing thread (C09, C14), and calls that lock an element can starve even if every store is visible at once (C43). The converse is false: another thread's get_cloned may miss a push that has returned, which no interleaving allows.", "quantifier": "all finite and endless executions of any number of threads over the interleaving model", "why_tests_cant": "It relates two semantics of the whole API; tests run on one machine and see a few schedules.", "anchors": ["src/state.rs", "src/vec.rs::ConcurrentVec::len", "src/grow.rs::push", "src/elem.rs", "src/vec.rs::get", "src/common_traits/index.rs"]}
{"id": "C50", "title": "Comparing concurrent vectors with each other", "statement": "Comparing vectors, slices and elements of concurrent vectors with == while other threads use them: nothing undefined happens, and each of the vectors behaves as in a program with this vector only, in which a comparison is a map whose closure calls map (so C45 and what it carries over hold for each of several vectors). If a == b returns true then both sides had the same number of elements, and for each pair there was a moment during the call at which the two elements had equal values; if it returns false then a pair was different at some moment, after pairs that were equal, or one side had fewer elements; at least the elements counted at the call are compared. Comparing two elements returns whether values that they had at the same moment are equal. A thread that compares two different vectors that nobody uses finishes, with the answer of list equality. Not guaranteed, for elements that wait for each other's handle: v == v, slices with the same first element, and e == e never return; a == b and b == a in two threads can wait for each other forever; a == b may be true although the vectors were different at every moment. If elements were compared after trying to get the handles once, == could be false for equal vectors that nobody writes; if without handles, comparing during a set would be a data race.", "quantifier": "all executions of any number of threads over any number of vectors, all pairs of operands (vectors, slices, elements)", "why_tests_cant": "Two vectors are compared element by element while both change; the interesting answers, and the deadlocks, need particular interleavings of two or more threads.", "anchors": ["src/common_traits/eq.rs::eq_elem_iters", "src/common_traits/eq.rs", "src/elem.rs", "src/vec.rs::iter", "src/concurrent_slice/slice.rs"]}
{"id": "C51", "title": "Closures that use other concurrent vectors", "statement": "Closures given to methods of one concurrent vector may call any &self method of any other concurrent vector (and of the same one), to any depth. Nothing undefined happens, and what happens to each of the vectors is an execution of this vector alone, so that C45, C46 and what C45 carries over hold for each. Over all vectors calls nest: while a call is unfinished, the calls around it have not ended and make no access. A call that waits, waits for another call of the same vector, which is the innermost one of another thread over all vectors or lends the element that is needed to its closure (or is a push_for_idx that runs its closure), or for an abandoned position, or it is swap(i, i). If closures only use vectors that come later in a fixed order than those whose calls they are inside of, no swap is made (or swaps do not wait), and no growth call panicked without having made room (beyond the maximum capacity, or in the closure of push_for_idx), then never do all threads wait, and all unfinished calls can be brought to their ends whatever the closures answer. Without such an order this fails: a[0].map(|_| b[0].set(x)) in one thread and b[0].map(|_| a[0].set(y)) in another can wait for each other forever, although no element is used inside a closure it was lent to; a set of calls each of which needs an element lent by a call around another one of the set never ends.", "quantifier": "every number of threads and vectors, every depth of nesting, every interleaving, every answer (or panic) of every closure, every growth policy", "why_tests_cant": "Deadlocks through several vectors depend on what every suspended call of every thread holds; tests see single interleavings and cannot tell slow from never.", "anchors": ["src/elem.rs: map, update", "src/iter_shorthands.rs", "src/concurrent_slice/iter_shorthands.rs", "src/mut_elem.rs: fill_with", "src/grow.rs: push_for_idx, extend_for_idx, extend_n_items"]}
{"id": "C52", "title": "Several concurrent vectors under the release/acquire memory model", "statement": "As C51 under the C11 orderings the crate uses: threads share several concurrent vectors and closures given to methods of one may use any of them, to any depth. Nothing undefined happens (no data race, no access out of bounds or to an uninitialised element), and what happens to each vector is an execution of this vector alone, so that C47 (and through it what C40 and C44 say about histories) holds for each. A thread is never without a possible step. Over all vectors calls nest: while a call is unfinished, the calls around it have not ended and make no access. Calls of one thread on one vector come one after another, whichever closures they are in; synchronisation of user code orders the calls on all vectors. Elements of one vector publish what happened to the others: if a thread has made a call on vector a and then writes a new element of vector b, or changes one, and another thread then accesses that element of b, the later calls of that thread on a come after the first call. So do references: whoever uses an element or slice obtained from b makes its later calls on a after the calls on a that the thread that obtained it had made before. In particular, an element pushed to a before an element was pushed to b is found by get_cloned and get_copied by whoever has read the element of b; no other synchronisation is needed.", "quantifier": "every number of threads and vectors, every depth of nesting, every execution of the release/acquire machine (every load may read any store that coherence allows), every answer (or panic) of every closure, every growth policy", "why_tests_cant": "Publication through an element of another vector depends on the orderings of its atomics; x86 hardware does not show the reorderings that too weak orderings would allow, and the interleavings are not under the control of a test.", "anchors": ["src/elem.rs: map, update, set, replace, cloned", "src/grow.rs: push, extend", "src/state.rs", "src/concurrent_slice/mut_elem.rs", "src/vec.rs: get_cloned, get_copied"]}
{"id": "C53", "title": "What calls made inside closures wait for under release/acquire", "statement": "As C46 under the C11 orderings the crate uses. A call, inside closures or not, whose next round of a busy-wait changes nothing although it reads the newest message, waits for one of: an element that was lent to a closure it is inside of; an element used by a call of another thread that is either the innermost one of its thread or lends that element to its closure; room beyond the capacity, while the first position beyond it is reserved by the innermost growth call of another thread or by a push_for_idx whose closure is running (in the same thread: one that the call is inside of), or was abandoned by a growth call that panicked without having made room; itself (swap(i, i)). An innermost call of another thread that is waited for does not wait itself, unless it is a swap. When no other thread has calls and the thread goes on reading newest messages, a call made inside closures ends if it uses no lent element and, for a growth call, no growth call has panicked without having made room and the enclosing push_for_idx calls have room. When the first position beyond the capacity belongs to a call whose closure is running, the growth calls made in that closure that got later positions never return, whatever is read and whatever other threads do. While no unsafe method is used, nobody reads or changes the value that was lent to a closure (also by map, which lends it shared) while a call made in the closure is unfinished; so a set of calls each of which needs an element lent to a closure that another one of the set is made in never ends, and a call for an element made inside the closure it was lent to never ends.", "quantifier": "every number of threads, every depth of nesting, every interleaving, every message that a load may read, every answer (or panic) of every closure, every growth policy", "why_tests_cant": "Needs what every suspended call of every thread holds, and the difference between a stale read, which another round repairs, and a wait that only another call can end; a test cannot tell slow from never and cannot choose what is read.", "anchors": ["src/grow.rs: push_for_idx, extend, extend_n_items", "src/elem.rs: map, update", "src/mut_elem.rs: fill_with", "src/state.rs", "src/iter_shorthands.rs"]}
{"id": "C54", "title": "What calls wait for over several vectors under release/acquire", "statement": "As the waiting part of C51 under the C11 orderings the crate uses. Closures may call methods of any concurrent vector, to any depth. A thread whose innermost call, over all vectors, makes no progress although it reads the newest messages, waits on the vector of that call: for an element that was lent to a closure of this vector it is inside of; for an element used by a call of another thread on this vector which is the innermost one of that thread over all vectors or lends the element to its closure; for room beyond the capacity, while the first position beyond it belongs to the innermost growth call of another thread or to a push_for_idx whose closure is running, or was abandoned by a growth call that panicked without having made room; or it is swap(i, i). An innermost call of another thread that is waited for does not wait itself, unless it is a swap. If closures only use vectors that come later in a fixed order than those whose calls they are inside of, no unfinished call is a swap that waits, and no growth call panicked without having made room, then never do all threads wait, and all unfinished calls can be brought to their ends whatever the closures answer. Without the order this fails: a[0].map(|_| b[0].set(x)) in one thread and b[0].map(|_| a[0].set(y)) in another can wait for each other forever, although no element is used inside a closure it was lent to. While no unsafe method is used, a set of calls each of which needs an element lent by a call around another one of the set never ends, whatever is read.", "quantifier": "every number of threads and vectors, every depth of nesting, every interleaving, every message that a load may read, every answer (or panic) of every closure, every growth policy", "why_tests_cant": "Needs what every suspended call of every thread holds on every vector, and the difference between a stale read, which another round repairs, and a wait that only another call can end; tests see single interleavings on hardware that rarely shows stale reads.", "anchors": ["src/elem.rs: map, update", "src/grow.rs: push_for_idx, extend, extend_n_items", "src/mut_elem.rs: fill_with", "src/state.rs", "src/iter_shorthands.rs"]}
