{
 "claims": [
  {
   "property": "C01",
   "status": "proved",
   "theorems": [
    "C01_list_history"
   ],
   "note": ""
  },
  {
   "property": "C02",
   "status": "proved",
   "theorems": [
    "C02_list_last",
    "C02_first_mut",
    "C02_first_mut_singleton_refuted"
   ],
   "note": ""
  },
  {
   "property": "C03",
   "status": "proved",
   "theorems": [
    "C03_stack_history"
   ],
   "note": ""
  },
  {
   "property": "C04",
   "status": "proved",
   "theorems": [
    "C04_queue_history"
   ],
   "note": ""
  },
  {
   "property": "C05",
   "status": "proved",
   "theorems": [
    "C05_queue_iteration"
   ],
   "note": ""
  },
  {
   "property": "C06",
   "status": "proved",
   "theorems": [
    "C06_queue_amortised",
    "C06_cost_model_faithful",
    "C06_persistent_use_refuted"
   ],
   "note": "The bound holds for linear use; the refutation shows it does not extend to re-using an old version."
  },
  {
   "property": "C07",
   "status": "proved",
   "theorems": [
    "C07_vector_history"
   ],
   "note": "for 0 < bits < usize::BITS and lengths up to vec_limit, both build profiles"
  },
  {
   "property": "C08",
   "status": "proved",
   "theorems": [
    "C08_vector_bounds"
   ],
   "note": ""
  },
  {
   "property": "C09",
   "status": "proved",
   "theorems": [
    "C09_vector_double_ended"
   ],
   "note": ""
  },
  {
   "property": "C10",
   "status": "proved",
   "theorems": [
    "C10_vector_minimal_height"
   ],
   "note": ""
  },
  {
   "property": "C11",
   "status": "proved",
   "theorems": [
    "C11_bits_accepted",
    "C07_vector_history",
    "C11_checked_capacity_exact",
    "C11_bits_at_least_width_refuted",
    "C11_release_at_least_width_refuted",
    "C11_release_corruption_refuted"
   ],
   "note": "exact for every bits value in both profiles; the refuted theorems are the values that the constructor accepts and the vector cannot support"
  },
  {
   "property": "C12",
   "status": "proved",
   "theorems": [
    "C12_hash_map_history",
    "C12_hash_map_index"
   ],
   "note": "every hash function compatible with key equality, every degree 2..usize::BITS, both build profiles"
  },
  {
   "property": "C13",
   "status": "proved",
   "theorems": [
    "C13_hash_map_iteration"
   ],
   "note": ""
  },
  {
   "property": "C14",
   "status": "proved",
   "theorems": [
    "C14_hash_map_invariants"
   ],
   "note": ""
  },
  {
   "property": "C15",
   "status": "proved",
   "theorems": [
    "C15_hash_map_insert_replaces",
    "C15_rb_map_insert_replaces",
    "C15_rb_set_insert_replaces",
    "C20_hash_set_history"
   ],
   "note": "HashTrieSet insert/get is part of the set history theorem, whose spec stores the newly inserted element"
  },
  {
   "property": "C16",
   "status": "proved",
   "theorems": [
    "C16_degrees_accepted",
    "C12_hash_map_history",
    "C14_hash_map_invariants",
    "C16_degree_one_refuted"
   ],
   "note": "acceptance is exact; termination for every accepted degree but 1, for which the second insert diverges at every recursion depth"
  },
  {
   "property": "C17",
   "status": "proved",
   "theorems": [
    "C17_hash_map_equality",
    "C17_extensional_equality_equivalence"
   ],
   "note": ""
  },
  {
   "property": "C18",
   "status": "proved",
   "theorems": [
    "C18_sparse_array"
   ],
   "note": ""
  },
  {
   "property": "C19",
   "status": "proved",
   "theorems": [
    "C19_parallel_iteration"
   ],
   "note": ""
  },
  {
   "property": "C20",
   "status": "proved",
   "theorems": [
    "C20_hash_set_history",
    "C20_hash_set_relations"
   ],
   "note": ""
  },
  {
   "property": "C21",
   "status": "proved",
   "theorems": [
    "C21_rb_map_history",
    "C21_rb_map_index"
   ],
   "note": ""
  },
  {
   "property": "C22",
   "status": "proved",
   "theorems": [
    "C22_rb_map_iteration"
   ],
   "note": ""
  },
  {
   "property": "C23",
   "status": "proved",
   "theorems": [
    "C23_rb_map_first_last"
   ],
   "note": ""
  },
  {
   "property": "C24",
   "status": "proved",
   "theorems": [
    "C24_rb_map_range"
   ],
   "note": ""
  },
  {
   "property": "C25",
   "status": "proved",
   "theorems": [
    "C25_rb_map_balanced",
    "C25_rb_map_stack_capacity"
   ],
   "note": ""
  },
  {
   "property": "C26",
   "status": "proved",
   "theorems": [
    "C26_rb_map_no_internal_panic",
    "C25_rb_map_stack_capacity"
   ],
   "note": ""
  },
  {
   "property": "C27",
   "status": "proved",
   "theorems": [
    "C27_rb_map_equality",
    "C27_rb_map_ordering",
    "C27_rb_map_hash",
    "C27_rb_set_ordering_hash",
    "C30_rb_set_relations"
   ],
   "note": ""
  },
  {
   "property": "C28",
   "status": "proved",
   "theorems": [
    "C28_list_traits",
    "C28_stack_traits",
    "C28_queue_traits",
    "C28_vector_traits",
    "C28_sequence_laws"
   ],
   "note": ""
  },
  {
   "property": "C29",
   "status": "proved",
   "theorems": [
    "C29_sequence_feed_delimits",
    "C29_list_feed_delimits",
    "C29_stack_feed_delimits",
    "C29_queue_feed_delimits",
    "C29_vector_feed_delimits",
    "C29_rb_map_feed_delimits",
    "C27_rb_set_ordering_hash"
   ],
   "note": ""
  },
  {
   "property": "C30",
   "status": "proved",
   "theorems": [
    "C30_rb_set_history",
    "C30_rb_set_relations",
    "C30_rb_set_range"
   ],
   "note": ""
  },
  {
   "property": "C31",
   "status": "proved",
   "theorems": [
    "C31_serialize_sequences",
    "C31_serialize_hash",
    "C31_serialize_rb",
    "C31_deserialize_sequences",
    "C31_deserialize_vector",
    "C31_deserialize_rb",
    "C31_deserialize_hash",
    "C31_last_entry_wins",
    "C31_sequence_round_trip",
    "C31_hash_round_trip",
    "C31_rb_round_trip",
    "C31_size_hint_trusted_refuted"
   ],
   "note": "every format that carries items over up to element equality; for List/Stack/Queue the announced size must be allocatable (the code trusts it: refutation included)"
  },
  {
   "property": "C32",
   "status": "proved",
   "theorems": [
    "C32_sequence_display",
    "C32_hash_display",
    "C32_rb_display",
    "C32_text"
   ],
   "note": ""
  },
  {
   "property": "C33",
   "status": "proved",
   "theorems": [
    "C33_list_construction",
    "C33_list_macro_evaluation_order",
    "C33_queue_construction",
    "C33_stack_construction",
    "C33_vector_construction",
    "C33_hash_map_from_iter",
    "C33_rb_map_from_iter",
    "C33_rb_set_from_iter"
   ],
   "note": ""
  },
  {
   "property": "C34",
   "status": "proved",
   "theorems": [
    "C34_list_persistent",
    "C34_stack_persistent",
    "C34_queue_persistent"
   ],
   "note": "every program over any number of versions on the reference-counted heap"
  },
  {
   "property": "C35",
   "status": "proved",
   "theorems": [
    "C35_vector_persistent"
   ],
   "note": "every program over any number of versions of a Vector on the reference-counted heap; within the capacity limit of C11"
  },
  {
   "property": "C36",
   "status": "proved",
   "theorems": [
    "C36_hash_map_persistent",
    "C36_hash_set_persistent"
   ],
   "note": "every program over any number of versions of a HashTrieMap on the reference-counted heap, with any lawful hasher and supported degree, collision buckets included; iteration is observed through size hints and counts, its order being unspecified"
  },
  {
   "property": "C37",
   "status": "proved",
   "theorems": [
    "C37_rb_map_persistent",
    "C37_rb_set_persistent"
   ],
   "note": "every program over any number of versions of a RedBlackTreeMap on the reference-counted heap, including first/last and iteration"
  },
  {
   "property": "C38",
   "status": "proved",
   "theorems": [
    "C38_list_counts_exact",
    "C38_stack_counts_exact",
    "C38_queue_counts_exact",
    "C38_vector_counts_exact",
    "C38_rb_map_counts_exact",
    "C38_hash_map_counts_exact",
    "C38_hash_set_counts_exact",
    "C38_rb_set_counts_exact"
   ],
   "note": "all eight collections"
  },
  {
   "property": "C39",
   "status": "proved",
   "theorems": [
    "C39_list_drop_depth",
    "C39_stack_drop_depth",
    "C39_queue_drop_depth",
    "C39_list_drop_one",
    "C39_sync_drop_depth_refuted",
    "C39_panicking_drop_depth_refuted"
   ],
   "note": "bounded depth for every sequential program whose elements do not panic when dropped; refuted when one does: unwinding drops the rest of the chain by nested calls. C39_sync_drop_depth_refuted refutes it between threads: after a failed try_unwrap the returned pointer can be the last one, and dropping it recurses along the chain"
  },
  {
   "property": "C40",
   "status": "proved",
   "theorems": [
    "C40_list_non_interfering",
    "C40_stack_non_interfering",
    "C40_queue_non_interfering",
    "C40_vector_non_interfering",
    "C40_rb_map_non_interfering",
    "C40_hash_map_non_interfering",
    "C40_hash_set_non_interfering",
    "C40_rb_set_non_interfering"
   ],
   "note": "all eight collections"
  },
  {
   "property": "C41",
   "status": "proved",
   "theorems": [
    "C41_hash_map_ptr_eq_sound",
    "C41_hash_map_ptr_eq_clone",
    "C41_hash_map_insert_not_ptr_eq",
    "C41_hash_set_ptr_eq_sound",
    "C41_hash_set_ptr_eq_clone",
    "C41_hash_set_insert_not_ptr_eq",
    "C41_rb_map_ptr_eq_sound",
    "C41_rb_map_ptr_eq_clone",
    "C41_rb_map_insert_not_ptr_eq",
    "C41_rb_set_ptr_eq_sound",
    "C41_rb_set_ptr_eq_clone",
    "C41_rb_set_insert_not_ptr_eq"
   ],
   "note": "on the reference-counted heap; soundness for versions held by any threads; the other two parts in every state a sequential program can reach"
  },
  {
   "property": "C42",
   "status": "proved",
   "theorems": [
    "C42_list_allocates",
    "C42_stack_allocates",
    "C42_queue_allocates",
    "C42_vector_allocates",
    "C42_levels_meaning",
    "C42_rb_map_allocates",
    "C42_hash_map_allocates",
    "C42_hash_set_allocates",
    "C42_rb_set_allocates"
   ],
   "note": "all eight collections"
  },
  {
   "property": "C43",
   "status": "proved",
   "theorems": [
    "C43_rb_unwind",
    "C43_rb_history",
    "C43_hash_unwind",
    "C43_hash_history",
    "C43_hash_history_no_collisions",
    "C43_hash_crowded_refuted",
    "C43_hash_caught_panic_refuted"
   ],
   "note": "every crash point of every operation and histories in which any calls are interrupted; the last two theorems refute the intact-map claim when two entries have the hash of the key worked on"
  },
  {
   "property": "C44",
   "status": "proved",
   "theorems": [
    "C44_vector_get_mut",
    "C44_hash_map_get_mut",
    "C44_rb_map_get_mut"
   ],
   "note": ""
  },
  {
   "property": "C45",
   "status": "proved",
   "theorems": [
    "C45_hash_map_partial_eq",
    "C45_rb_map_partial_eq",
    "C45_rb_map_unshared_partial_eq",
    "C17_hash_map_equality",
    "C27_rb_map_equality",
    "C45_hash_map_non_reflexive_refuted",
    "C45_rb_map_non_reflexive_refuted",
    "C45_hash_map_sharing_visible_refuted",
    "C45_rb_map_sharing_visible_refuted"
   ],
   "note": "exact answer of == for arbitrary PartialEq; the refuted theorems show for every map with a value not equal to itself that the answer depends on physical sharing"
  },
  {
   "property": "C46",
   "status": "proved",
   "theorems": [
    "C46_hash_map_canonical",
    "C46_hash_map_iteration_canonical",
    "C46_collision_order_refuted"
   ],
   "note": "the last theorem shows that the hypothesis on collisions is needed"
  },
  {
   "property": "C47",
   "status": "proved",
   "theorems": [
    "C47_rb_call",
    "C47_rb_history",
    "C47_rb_iter_one_way",
    "C47_rb_iter",
    "C47_rb_range",
    "C47_rb_agrees",
    "C47_rb_agrees_crash",
    "C47_rb_iter_both_ends_refuted",
    "C47_hash_history",
    "C47_hash_agrees",
    "C47_hash_agrees_crash",
    "C47_hash_unstable_refuted"
   ],
   "note": "user code is an arbitrary function of a world that it changes, or a panic; the refuted theorems are what the claim does not say: two-ended iteration may omit entries and a range may repeat one, and a hash map needs an Eq that repeats its answer"
  },
  {
   "property": "C48",
   "status": "proved",
   "theorems": [
    "C48_rb_map_drop_depth",
    "C48_rb_set_drop_depth",
    "C48_rb_drop_one",
    "C48_vector_drop_depth",
    "C48_hash_map_drop_depth",
    "C48_hash_set_drop_depth",
    "C48_sync_hash_map_drop_depth_refuted"
   ],
   "note": "each theorem also says that nothing fails, so the depth bounds are not those of runs cut short; the last theorem refutes the bound for hash maps dropped by two threads"
  },
  {
   "property": "C49",
   "status": "proved",
   "theorems": [
    "C49_hash_map_calls",
    "C47_rb_call"
   ],
   "note": "the log of user calls is explicit: hash, comparisons, clone in this order; the example shows that the limits are reached, 13 comparisons for one insertion in a trie of degree 64"
  },
  {
   "property": "C50",
   "status": "proved",
   "theorems": [
    "C50_list_total_work",
    "C50_list_call_work",
    "C50_list_clone_work",
    "C50_stack_total_work",
    "C50_stack_call_work",
    "C50_stack_clone_work",
    "C50_queue_total_work",
    "C50_queue_call_work",
    "C50_queue_clone_work",
    "C50_vector_total_work",
    "C50_vector_call_work",
    "C50_vector_clone_work",
    "C50_rb_map_total_work",
    "C50_rb_map_call_work",
    "C50_rb_map_clone_work",
    "C50_rb_set_total_work",
    "C50_rb_set_call_work",
    "C50_rb_set_clone_work",
    "C50_hash_map_total_work",
    "C50_hash_map_call_work",
    "C50_hash_map_clone_work",
    "C50_hash_set_total_work",
    "C50_hash_set_call_work",
    "C50_hash_set_clone_work"
   ],
   "note": "total: amortised over any program, threads and schedule, freeing paid for when a cell is allocated; call: worst case of one call that drops no version, in any reachable state"
  },
  {
   "property": "C51",
   "status": "proved",
   "theorems": [
    "C51_list_iterators",
    "C51_list_next",
    "C51_list_threads",
    "C51_stack_iterators",
    "C51_stack_next",
    "C51_stack_threads",
    "C51_queue_iterators",
    "C51_queue_next",
    "C51_queue_threads",
    "C51_vector_iterators",
    "C51_vector_next",
    "C51_vector_threads",
    "C51_rb_map_iterators",
    "C51_rb_map_next",
    "C51_rb_map_threads",
    "C51_rb_set_iterators",
    "C51_rb_set_next",
    "C51_rb_set_threads",
    "C51_hash_map_iterators",
    "C51_hash_map_next",
    "C51_hash_map_threads",
    "C51_hash_set_iterators",
    "C51_hash_set_next",
    "C51_hash_set_threads"
   ],
   "note": "One call of the Queue iterator may reverse the inbound list into a buffer: that is the length + 2. The borrow rule is an hypothesis on programs."
  },
  {
   "property": "C52",
   "status": "proved",
   "theorems": [
    "C52_list_values",
    "C52_list_cells",
    "C52_stack_values",
    "C52_stack_cells",
    "C52_queue_values",
    "C52_queue_cells",
    "C52_vector_values",
    "C52_vector_cells",
    "C52_rb_map_values",
    "C52_rb_map_cells",
    "C52_rb_set_values",
    "C52_rb_set_cells",
    "C52_hash_map_values",
    "C52_hash_map_cells",
    "C52_hash_set_values",
    "C52_hash_set_cells"
   ],
   "note": "values released promptly; bounds on live cells, after programs and finished threads"
  },
  {
   "property": "C53",
   "status": "proved",
   "theorems": [
    "C53_queue_amortised_work",
    "C53_queue_linear",
    "C53_constant_clones_refuted"
   ],
   "note": "constant charges per queue call, sum over all threads and schedules"
  },
  {
   "property": "C54",
   "status": "proved",
   "theorems": [
    "C54_rb_map_unwinding",
    "C54_hash_map_unwinding",
    "C54_hash_map_no_collisions"
   ],
   "note": "RedBlackTreeMap and HashTrieMap: caught panics at any user call, versions sharing cells, any number of threads"
  },
  {
   "property": "C55",
   "status": "proved",
   "theorems": [
    "C55_list_history",
    "C55_stack_history",
    "C55_queue_history",
    "C55_vector_history",
    "C55_vector_drop_last_refuted",
    "C55_vector_set_mends",
    "C55_rb_insert",
    "C55_rb_history",
    "C55_rb_remove",
    "C55_rb_remove_absent",
    "C55_rb_remove_block",
    "C55_rb_remove_root_refuted",
    "C55_rb_later_panic_refuted",
    "C55_hash_insert",
    "C55_hash_insert_crowded_refuted",
    "C55_hash_remove",
    "C55_hash_remove_absent",
    "C55_hash_history",
    "C55_hash_later_panic_refuted",
    "C55_hash_bucket_panic_refuted"
   ],
   "note": "the refuted theorems are the calls after which the collection is wrong: Vector::drop_last_mut, RedBlackTreeMap::remove_mut, HashTrieMap::remove_mut, and HashTrieMap::insert_mut of a key whose hash another key has"
  },
  {
   "property": "C56",
   "status": "proved",
   "theorems": [
    "C56_vector_unwinding",
    "C56_list_unwinding",
    "C56_stack_unwinding",
    "C56_queue_unwinding",
    "C56_rb_map_unwinding",
    "C56_hash_map_unwinding"
   ],
   "note": "Vector, List, Stack, Queue: caught panics in get_mut, extend and from_iter; maps: from_iter, versions sharing cells, any number of threads"
  },
  {
   "property": "C57",
   "status": "proved",
   "theorems": [
    "C57_hash_step",
    "C57_hash_history",
    "C57_hash_elsewhere",
    "C57_agrees",
    "C57_no_own_panic_refuted"
   ],
   "note": "histories continued past the loss of entries; that only user code panics is refuted"
  },
  {
   "property": "C58",
   "status": "proved",
   "theorems": [
    "C58_damaged_hash_map_heap"
   ],
   "note": "C54 for HashTrieMap without its restriction: versions that have lost entries are changed, cloned, shared and dropped like any other; any number of threads"
  },
  {
   "property": "C59",
   "status": "proved",
   "theorems": [
    "C59_list",
    "C59_stack",
    "C59_queue",
    "C59_vector",
    "C59_rb_order",
    "C59_rs_order",
    "C59_rb_eq",
    "C59_rs_disjoint",
    "C59_rs_subset",
    "C59_hash_entries",
    "C59_hash_eq",
    "C59_hs_disjoint",
    "C59_hs_subset",
    "C59_agrees_seq",
    "C59_agrees_rb",
    "C59_agrees_rs",
    "C59_agrees_hash"
   ],
   "note": "user code is an arbitrary function of a world that it changes, or a panic; every question of the call is accounted for"
  },
  {
   "property": "C60",
   "status": "proved",
   "theorems": [
    "C60_range_call",
    "C60_range_total",
    "C60_range_lawful",
    "C60_iter",
    "C47_rb_iter_one_way"
   ],
   "note": "The questions are those of LawlessModel.v: whether a key is past the start bound or before the end bound (one call of RangeBounds, Borrow and at most one comparison each) and key > key."
  },
  {
   "property": "C61",
   "status": "proved",
   "theorems": [
    "C61_list_shares",
    "C61_stack_shares",
    "C61_queue_shares",
    "C61_vector_shares",
    "C61_rb_map_shares",
    "C61_rb_set_shares",
    "C61_hash_map_shares",
    "C61_hash_set_shares"
   ],
   "note": "The rule that nothing is changed or dropped through a reference is an hypothesis on programs; an example shows it is needed."
  },
  {
   "property": "C62",
   "status": "proved",
   "theorems": [
    "C62_list_guarded",
    "C62_stack_guarded",
    "C62_queue_guarded",
    "C62_vector_guarded",
    "C62_rb_map_guarded",
    "C62_rb_set_guarded",
    "C62_hash_map_guarded",
    "C62_hash_set_guarded"
   ],
   "note": "The order in which the commands take effect is the order in which they were begun, with the lock taken; that a thread does not drop the version behind a lock without putting one back is an hypothesis on programs."
  },
  {
   "property": "C63",
   "status": "proved",
   "theorems": [
    "C63_nested_persistent",
    "C63_nested_non_interfering",
    "C63_nested_counts_exact",
    "C63_nested_guarded"
   ],
   "note": "The outer collection is a List, Stack, Queue, Vector, or a RedBlackTreeMap or HashTrieMap (values), the inner one any of the eight or again such a nested one."
  },
  {
   "property": "C64",
   "status": "proved",
   "theorems": [
    "C64_sequence_debug",
    "C64_rb_debug",
    "C64_hash_debug",
    "C64_sequence_text",
    "C64_rb_text",
    "C64_hash_text",
    "C64_text_shows_state",
    "C64_equal_text_refuted",
    "C64_stops_at_error",
    "C64_list_nesting",
    "C64_vector_nesting",
    "C64_rb_nesting",
    "C64_hash_nesting"
   ],
   "note": "Texts are compared as sequences of pieces, what the Debug of an element writes being one; the alternate form is not modelled."
  },
  {
   "property": "C65",
   "status": "proved",
   "theorems": [
    "C65_list_drop",
    "C65_stack_drop",
    "C65_queue_drop",
    "C65_vector_drop",
    "C65_rb_map_drop",
    "C65_rb_set_drop",
    "C65_hash_map_drop",
    "C65_hash_set_drop"
   ],
   "note": "One thread; panics in drops of whole versions (those inside calls are C55)."
  },
  {
   "property": "C66",
   "status": "proved",
   "theorems": [
    "C66_list_throws",
    "C66_stack_throws",
    "C66_queue_throws",
    "C66_vector_throws",
    "C66_rb_map_throws",
    "C66_rb_set_throws",
    "C66_hash_map_throws",
    "C66_hash_set_throws"
   ],
   "note": "Panics in drops of whole versions (those inside calls are C55)."
  }
 ]
}