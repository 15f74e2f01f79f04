{"claims": [
  {"property": "C01", "status": "proved", "theorems": ["C01_disjoint", "C01_initial"], "note": ""},
  {"property": "C02", "status": "proved", "theorems": ["C02_stored", "C02_once", "C02_memory"], "note": ""},
  {"property": "C03", "status": "proved", "theorems": ["C03_to_vec", "C03_values", "C03_initial"], "note": ""},
  {"property": "C04", "status": "proved", "theorems": ["C04_order"], "note": ""},
  {"property": "C05", "status": "proved", "theorems": ["C05_push_for_idx", "C05_extend_for_idx"], "note": ""},
  {"property": "C06", "status": "proved", "theorems": ["C06_filled", "C06_references", "C06_no_panic"], "note": ""},
  {"property": "C07", "status": "proved", "theorems": ["C07_monotone", "C07_initial"], "note": ""},
  {"property": "C08", "status": "proved", "theorems": ["C08_bound", "C08_exact"], "note": ""},
  {"property": "C09", "status": "proved", "theorems": ["C09_up_to_date", "C09_refuted"], "note": "Proved under the condition in the statement (no other call uses one of the positions during the call); C09_refuted gives the execution showing that the condition is needed."},
  {"property": "C10", "status": "proved", "theorems": ["C10_no_fault", "C10_memory"], "note": "All calls of the safe API and get_ref/iter_ref (without dereferencing). Sequentially consistent interleavings; see C40 for the memory orderings."},
  {"property": "C11", "status": "proved", "theorems": ["C11_linearizable", "C11_at_rest", "C11_instant", "C11_counter"], "note": ""},
  {"property": "C12", "status": "proved", "theorems": ["C12_conserved", "C12_source", "C12_latest", "C12_replace", "C12_set", "C12_unique"], "note": ""},
  {"property": "C13", "status": "proved", "theorems": ["C13_some", "C13_value"], "note": ""},
  {"property": "C14", "status": "proved", "theorems": ["C14_get", "C14_index", "C14_refuted"], "note": "The unconditional claim is false: C14_refuted. C14_get and C14_index prove the conditional version."},
  {"property": "C15", "status": "proved", "theorems": ["C15_exclusive", "C15_bounded", "C15_monotone", "C15_capacity", "C15_reported", "C15_capacity_monotone", "C15_harmless"], "note": ""},
  {"property": "C16", "status": "proved", "theorems": ["C16_returned", "C16_panicked", "C16_exactly"], "note": ""},
  {"property": "C17", "status": "proved", "theorems": ["C17_released", "C17_update", "C17_others", "C17_fill_with"], "note": ""},
  {"property": "C18", "status": "proved", "theorems": ["C18_empty", "C18_length", "C18_to_vec", "C18_refuted"], "note": "That the vector remains fully usable is false: C18_refuted (len stays at the gap, to_vec panics)."},
  {"property": "C19", "status": "proved", "theorems": ["C19_capacity", "C19_returned", "C19_blocked", "C19_waits", "C19_refuted"], "note": "That growth recovers is false: C19_refuted."},
  {"property": "C20", "status": "proved", "theorems": ["C20", "C20_stalled", "C20_lock_free_refuted", "C20_push_lock_free_refuted"], "note": "Lock-freedom of growth is refuted; the theorems say which calls can wait, and for whom."},
  {"property": "C21", "status": "proved", "theorems": ["C21_fair", "C21_alone", "C21_progress", "C21_all_end"], "note": ""},
  {"property": "C22", "status": "proved", "theorems": ["C22_true", "C22_false", "C22_bounds", "C22_available", "C22_slice_true", "C22_slice_false"], "note": "Where the theorems mention hspin: whether the external mut_handle waits or gives up when the element is in use is a parameter of the model; both cases are covered."},
  {"property": "C23", "status": "proved", "theorems": ["C23_self", "C23_self_refuted", "C23_deadlock_refuted"], "note": "The claim is refuted: C23_self_refuted (swap(i,i) in bounds never ends), C23_deadlock_refuted (two swaps that block each other in all continuations). Both for a mut_handle that waits."},
  {"property": "C24", "status": "proved", "theorems": ["C24_iter", "C24_reads", "C24_values", "C24_fill", "C24_fill_with"], "note": ""},
  {"property": "C25", "status": "proved", "theorems": ["C25_slice", "C25_panic", "C25_own", "C25_values"], "note": "Ranges with end before start are outside the discipline when overflow checks are off."},
  {"property": "C26", "status": "proved", "theorems": ["C26_split_at", "C26_split_at_panic", "C26_split_first", "C26_split_last", "C26_chunks", "C26_chunks_panic", "C26_no_panic"], "note": ""},
  {"property": "C27", "status": "proved", "theorems": ["C27_step", "C27_run", "C27_ends"], "note": ""},
  {"property": "C28", "status": "proved", "theorems": ["C28_index_of", "C28_contains", "C28_eq", "C28_debug"], "note": "Stated for calls during which no element is overwritten; growth may be concurrent. C24_reads relates the results to the values actually read without that condition."},
  {"property": "C29", "status": "proved", "theorems": ["C29_map", "C29_filter", "C29_fold", "C29_reduce", "C29_panic"], "note": "Stated for calls during which no element is overwritten; growth may be concurrent. C24_reads relates the results to the values actually read without that condition."},
  {"property": "C30", "status": "proved", "theorems": ["C30_clear", "C30_reserve"], "note": ""},
  {"property": "C31", "status": "proved", "theorems": ["C31_into", "C31_no_gaps", "C31_clones", "C31_clones_alone", "C31_clone", "C31_from"], "note": ""},
  {"property": "C32", "status": "proved", "theorems": ["C32_collect", "C32_correct_hint", "C32_dropped", "C32_panics", "C32_overflow", "C32_new"], "note": ""},
  {"property": "C33", "status": "proved", "theorems": ["C33_fixed_ok", "C33_linear_ok", "C33_doubling_ok", "C33_fixed", "C33_linear", "C33_doubling", "C33_exact", "C33_linear_reserve", "C33_doubling_reserve"], "note": ""},
  {"property": "C34", "status": "proved", "theorems": ["C34_no_fault", "C34_untouched", "C34_references", "C34_no_panic"], "note": ""},
  {"property": "C35", "status": "proved", "theorems": ["C35_race"], "note": "Refuted in the sense of the statement: C35_race shows the data race, for every vector at rest and every updating element method."},
  {"property": "C36", "status": "proved", "theorems": ["C36_refuted"], "note": "C36_refuted: for every vector at rest with at least one element there is an argument of extend_n_items after which the next push is given a position in use."},
  {"property": "C37", "status": "proved", "theorems": ["C37_refuted"], "note": "C37_refuted: for every list of options with an empty one. replace on an empty element is not modelled beyond its return value."},
  {"property": "C38", "status": "proved", "theorems": ["C38_within", "C38_filled", "C38_refuted"], "note": "Holds unless a growth call panicked beyond the maximum capacity or in push_for_idx (C38_within, C38_filled); false afterwards: C38_refuted."},
  {"property": "C39", "status": "proved", "theorems": ["C39_moves"], "note": ""},
  {"property": "C40", "status": "proved", "theorems": ["C40_no_fault", "C40_no_panic", "C40_enabled", "C40_program_order", "C40_sync_order", "C40_unique", "C40_bounded", "C40_visible", "C40_len", "C40_monotone", "C40_iter", "C40_get", "C40_get_cloned", "C40_same_value", "C40_stored_value"], "note": "Every execution of the view machine (RA/Weak.v) under the same discipline as C10/C34: no fault, no internal panic, unique positions, visibility along happens-before, len never goes back. The machine has no out-of-thin-air reads (promise free). Liveness under weak memory is limited to C40_enabled (no thread is blocked)."},
  {"property": "C41", "status": "proved", "theorems": ["C41_checked", "C41_refuted"], "note": "C41_checked (overflow checks on) and C41_refuted (off). Assumes that the external vec_range_limits limits both ends to the length and does not itself reject inverted ranges."},
  {"property": "C42", "status": "proved", "theorems": ["C42_no_wait", "C42_work", "C42_wait_free", "C42_growth"], "note": "Steps are atomic accesses of the model; the bound (cost in Fair.v) is not claimed to be tight."},
  {"property": "C43", "status": "proved", "theorems": ["C43_growth", "C43_starvation_refuted"], "note": "C43_growth proves it for growth calls; for element methods it is refuted by C43_starvation_refuted (the external handles are spin locks without queue)."},
  {"property": "C44", "status": "proved", "theorems": ["C44_history", "C44_legal", "C44_memory", "C44_calls", "C44_disjoint", "C44_order", "C44_stored", "C44_once", "C44_kept", "C44_lossless", "C44_instant", "C44_linearizable", "C44_counter", "C44_conserved", "C44_source", "C44_latest", "C44_reads", "C44_eq", "C44_values", "C44_fill", "C44_fill_with", "C44_stale_refuted"], "note": "Histories of the view machine satisfy the same statements as under sequential consistency: legal histories, growth, losslessness, linearizability, conservation, methods that go over the elements. Two things are weaker: get_cloned/get_copied returning None are not linearizable in real time (C44_stale_refuted; C40_visible gives them along happens-before), and for == with a list only the answer true is characterised (C44_eq)."},
  {"property": "C45", "status": "proved", "theorems": ["C45_flat", "C45_transfer", "C45_no_fault", "C45_nesting", "C45_exclusive", "C45_deadlock", "C45_self_deadlock", "C45_wait_free"], "note": "Machine with a stack of suspended calls per thread (Model/Reentrant.v), related by simulation to the machine of the other properties; C45_flat and C45_transfer carry every theorem about executions over. C45_self_deadlock covers the element methods, and slice methods that go over the lent element; nested calls that go over the whole vector are not in it."},
  {"property": "C46", "status": "proved", "theorems": ["C46_waits", "C46_position", "C46_push_for", "C46_ends"], "note": "For each suspended call the accesses it has made are related to the program it has left (phases in Logic/Inner.v), which bounds what it holds; the wait of the flat machine is then traced back to the stack of calls. C46_ends is about methods without closures of their own."},
  {"property": "C47", "status": "proved", "theorems": ["C47_flat", "C47_transfer", "C47_no_fault", "C47_enabled", "C47_nesting", "C47_exclusive", "C47_results", "C47_order", "C47_sync", "C47_visible", "C47_monotone"], "note": "Machine with a stack of suspended calls per thread over the view memory (RA/WReentrant.v), related by simulation to the view machine of C40 and C44. C47_exclusive says that a lent value is not changed (and not read if lent to update), for both disciplines of deref; C45_exclusive is stronger under sequential consistency. What calls wait for is C53."},
  {"property": "C48", "status": "proved", "theorems": ["C48_waits", "C48_stalled", "C48_alone", "C48_progress", "C48_all_end", "C48_no_wait", "C48_work", "C48_wait_free", "C48_fair", "C48_growth", "C48_lock_free_refuted", "C48_push_lock_free_refuted", "C48_visibility_needed"], "note": "The statements of C20, C21, C42 and C43 for the view machine (RA/WLocks.v: who holds which element; RA/WLive.v: progress). A round of a busy-wait with the newest message leaves the configuration unchanged; fairness (RA/WFair.v) asks for a step with the newest message some time later, and C48_visibility_needed shows that this is needed. That calls that lock elements can starve is C49_starvation_refuted."},
  {"property": "C49", "status": "proved", "theorems": ["C49_histories", "C49_endless", "C49_starvation_refuted", "C49_converse_refuted", "C49_get_refuted", "C49_len_refuted"], "note": "Simulation of the interleaving machine by the view machine with newest reads and no WSync. Compared are histories without call identifiers, loads of counters/states/capacities and the instant at which a new position gets its value (the two machines log it at the write and at the publication). _refuted: starvation, C09 and C14 under release/acquire, and the converse inclusion."},
  {"property": "C50", "status": "proved", "theorems": ["C50_project", "C50_no_fault", "C50_true", "C50_false", "C50_bool", "C50_self_hangs", "C50_elem", "C50_elem_self_hangs", "C50_alone", "C50_cross_refuted", "C50_snapshot_refuted", "C50_try_refuted", "C50_look_refuted"], "note": "How ConcurrentOption compares two options is not in the repository: a parameter (eqmode: wait for the handles, try once, look without handles). Theorems about results and about the projection to one vector are for waiting; C50_alone is for all three; C50_cross_refuted, C50_self_hangs, C50_snapshot_refuted are for waiting, C50_try_refuted and C50_look_refuted show what the other two break. Sequentially consistent; closures that call back, clear and reserve_maximum_capacity are not in the several-vectors machine."},
  {"property": "C51", "status": "proved", "theorems": ["C51_vectors", "C51_flat", "C51_no_fault", "C51_calls", "C51_nesting", "C51_waits", "C51_ordered", "C51_ends", "C51_deadlock", "C51_cross_refuted"], "note": "All vectors have one element type V (a sum type otherwise). Sequentially consistent. C51_waits traces a wait to the call that blocks; C51_ordered and C51_ends need the order of vectors and that no growth call panicked without having made room; C51_cross_refuted is the execution without an order."},
  {"property": "C52", "status": "proved", "theorems": ["C52_vectors", "C52_transfer", "C52_flat", "C52_no_fault", "C52_enabled", "C52_calls", "C52_nesting", "C52_order", "C52_sync", "C52_publication", "C52_handover", "C52_visible", "C52_found"], "note": "All vectors have one element type V (a sum type otherwise). RA/WNetwork.v adds to the view machine of C47 what each release store of a vector passes on about the other vectors. C52_vectors and C52_transfer carry C47 over, C52_flat what holds without callbacks. C52_publication (through elements) and C52_handover (through references) need that neither vector is cleared in between. What calls wait for is C54."},
  {"property": "C53", "status": "proved", "theorems": ["C53_waits", "C53_ends", "C53_push_for", "C53_exclusive", "C53_deadlock", "C53_self_deadlock"], "note": "RA/WWaits.v: the flat view machine's account of waits (C48) is traced back to the stack of calls; what a suspended call holds comes from the shape of its program and from the answers it has had. C53_ends and C53_waits are about threads that read the newest messages (a round that reads an older one may change nothing without any call being in the way). C53_ends is about methods without closures of their own. C53_exclusive, C53_deadlock and C53_self_deadlock (RA/WDead.v) are about all reads, newest or not; they cover the methods that need an element in any case, not get_cloned, which may find none (C45_deadlock has it for sequentially consistent executions)."},
  {"property": "C54", "status": "proved", "theorems": ["C54_waits", "C54_ordered", "C54_ends", "C54_deadlock", "C54_cross_refuted"], "note": "All vectors have one element type V (a sum type otherwise). RA/WCross.v: the waits of C53 on one vector, seen over all of them; a call that does not run a closure is the innermost one of its thread over all vectors. Waiting means a round that changes nothing although it reads the newest message; C54_ends is about steps that read newest messages. C54_ordered and C54_ends need the order of vectors, no waiting swap among the unfinished calls and that no growth call panicked without having made room. C54_deadlock (no unsafe methods) holds for all reads, newest or not. C54_cross_refuted is the state without an order in which all threads with calls wait forever."}
]}
