{
 "claims": [
  {
   "property": "C01",
   "status": "proved",
   "theorems": [
    "C01_array_conservation",
    "C01_array_flush_returns_all"
   ],
   "note": ""
  },
  {
   "property": "C02",
   "status": "proved",
   "theorems": [
    "C02_array_size_exact"
   ],
   "note": ""
  },
  {
   "property": "C03",
   "status": "proved",
   "theorems": [
    "C03_array_pop_order",
    "C03_array_pop_all",
    "C03_reachable"
   ],
   "note": ""
  },
  {
   "property": "C04",
   "status": "proved",
   "theorems": [
    "C04_push_fits",
    "C04_push_exact",
    "C04_push_larger_than_capacity",
    "C04_push_evicts_old"
   ],
   "note": ""
  },
  {
   "property": "C05",
   "status": "proved",
   "theorems": [
    "C05_contains_agrees",
    "C05_take_agrees",
    "C05_get_agrees",
    "C05_compressed_get"
   ],
   "note": "contains and take for every architecture; get for every architecture whose get is faithful (see C13, C46); and get of Compressed."
  },
  {
   "property": "C06",
   "status": "proved",
   "theorems": [
    "C06_take_multiple_exact"
   ],
   "note": ""
  },
  {
   "property": "C07",
   "status": "partial",
   "theorems": [
    "C07_btree_conservation",
    "C07_btree_flush_returns_all",
    "C07_repeated_key_loses_pair_refuted",
    "C07_repeated_key_panics_refuted"
   ],
   "note": "Proved for every history of distinct-key pushes; the second half (repeated keys in one push) is false of the code and refuted for all keys and values."
  },
  {
   "property": "C08",
   "status": "proved",
   "theorems": [
    "C08_btree_size_exact_keys_unique",
    "C08_repeated_key_corrupts_size_refuted"
   ],
   "note": ""
  },
  {
   "property": "C09",
   "status": "proved",
   "theorems": [
    "C09_btree_pop_order",
    "C09_btree_pop_all"
   ],
   "note": ""
  },
  {
   "property": "C10",
   "status": "proved",
   "theorems": [
    "C10_btree_push_replaces",
    "C10_overflowing_push_returns_repeated_key"
   ],
   "note": ""
  },
  {
   "property": "C11",
   "status": "proved",
   "theorems": [
    "C11_push_returns_only_what_no_batch_kept",
    "C11_batch_is_one_container",
    "C11_pop_frees"
   ],
   "note": ""
  },
  {
   "property": "C12",
   "status": "proved",
   "theorems": [
    "C12_exclusive_sides_disjoint",
    "C12_exclusive_conserves",
    "C12_exclusive_pop_back_first"
   ],
   "note": ""
  },
  {
   "property": "C13",
   "status": "partial",
   "theorems": [
    "C13_exclusive_get",
    "C13_front_capacity_0_refuted",
    "C13_variable_sizes_refuted",
    "C13_associative_back_refuted"
   ],
   "note": "Proved for all architectures counting elements by one (the default) with a front of capacity >= 1. Otherwise false of the code: a front without capacity hides the value; different sizes or an Associative back make get panic."
  },
  {
   "property": "C14",
   "status": "partial",
   "theorems": [
    "C14_new",
    "C14_front_as_large_partial",
    "C14_small_front_until_something_leaves_partial",
    "C14_lookups_and_flush",
    "C14_take_exact",
    "C14_take_multiple_exact",
    "C14_push_exact",
    "C14_pop_exact",
    "C14_orphans_come_from_evictions",
    "C14_take_refuted",
    "C14_pop_refuted",
    "C14_take_multiple_refuted",
    "C14_push_refuted",
    "C14_front_0_refuted"
   ],
   "note": "False of the code when the front is smaller than the back: a get that evicts a copy from the front leaves its key marked in the back, and from then on take and pop of that key panic and take_multiple and push lose it (refuted). Proved: the whole property when the front is as large as the back; for smaller fronts, contains/get/get_mut/flush are right in every state, and what the other calls do is given exactly. Front: any architecture with a faithful get; back: a BTree, or any architecture whose get hands out a pointer to the stored element (Array, and Batch, Exclusive, Profiler, Decorator over such); elements of size one. The other backs: C72."
  },
  {
   "property": "C15",
   "status": "proved",
   "theorems": [
    "C15_flush_stopper_flush",
    "C15_flush_stopper_transparent",
    "C15_exclusive_over_stopped_back"
   ],
   "note": ""
  },
  {
   "property": "C16",
   "status": "proved",
   "theorems": [
    "C16_each_key_in_its_set",
    "C16_each_key_in_its_set_after_pops",
    "C16_lookup_in_its_set_only",
    "C16_associative_conserves"
   ],
   "note": "The placement also survives every pop that returns."
  },
  {
   "property": "C17",
   "status": "partial",
   "theorems": [
    "C17_pop_partial",
    "C17_pop_keeps",
    "C17_pop_in_between_exactly",
    "C17_pop_asks_little_refuted",
    "C17_pop_in_between_refuted",
    "C17_pop_frees_too_little_refuted",
    "C17_pop_panics_refuted"
   ],
   "note": "False of the code: it frees what was asked only for pop(0) and pop of at least the whole size; otherwise it panics or frees too little (exactly what it does is C17_pop_in_between_exactly). A pop that returns keeps every element (C17_pop_keeps)."
  },
  {
   "property": "C18",
   "status": "proved",
   "theorems": [
    "C18_tower_fails_iff_bits_exhausted",
    "C18_levels_use_consecutive_bit_ranges",
    "C18_depends_only_on_its_bits",
    "C18_ranges_disjoint",
    "C18_levels_independent",
    "C18_range_covers_sets"
   ],
   "note": ""
  },
  {
   "property": "C19",
   "status": "proved",
   "theorems": [
    "C19_laws_for_every_nesting",
    "C19_any_history",
    "C19_whenever_it_returns",
    "C19_profiled_dyn_duplicate_keys_refuted",
    "C19_with_gets"
   ],
   "note": "Every nesting of Array, BTree, Batch, Exclusive, FlushStopper, Sequential, DynBuildingBlock, Profiler, Decorator, Associative, Compressed (in memory) and SocketClient of a running server; also with get/get_mut calls anywhere in the history. pop on an Associative may panic; with pops at will, the account is exact whenever the calls return (C19_whenever_it_returns)."
  },
  {
   "property": "C20",
   "status": "proved",
   "theorems": [
    "C20_end_to_end"
   ],
   "note": ""
  },
  {
   "property": "C21",
   "status": "proved",
   "theorems": [
    "C21_size_within_constant_capacity",
    "C21_with_gets"
   ],
   "note": ""
  },
  {
   "property": "C22",
   "status": "proved",
   "theorems": [
    "C22_fifo_pop",
    "C22_fifo_push",
    "C22_fifo_any_keys",
    "C22_cloned_handles_refuted"
   ],
   "note": "For any container built of the ordered leaves under a Fifo decorator, one handle. Separate cloned handles of one container count separately (shown by the last theorem)."
  },
  {
   "property": "C23",
   "status": "proved",
   "theorems": [
    "C23_lru_pop",
    "C23_lru_push",
    "C23_compressed_get_changes_nothing",
    "C23_compressed_read_not_recorded_refuted"
   ],
   "note": "For any strictly increasing clock, over any nesting of ordered leaves. Over a Compressed, get shows a copy and the access is lost, so recently read elements are evicted first (last two theorems)."
  },
  {
   "property": "C24",
   "status": "partial",
   "theorems": [
    "C24_total_order_at_one_time",
    "C24_order_does_not_depend_on_time",
    "C24_two_readings_partial",
    "C24_cell_below_itself_refuted",
    "C24_each_below_the_other_refuted",
    "C24_stored_is_decayed_sum",
    "C24_score_is_documented",
    "C24_exponent"
   ],
   "note": "Proved at a given time; but the code reads the clock twice per comparison, and then it is not an order (refuted for every pair of distinct readings). Scores over exact rationals; C59 is the same order on the f32 of the code."
  },
  {
   "property": "C25",
   "status": "proved",
   "theorems": [
    "C25_decorator_returns_pushed_values",
    "C25_decorator_get"
   ],
   "note": ""
  },
  {
   "property": "C26",
   "status": "proved",
   "theorems": [
    "C26_transparent",
    "C26_no_new_panic",
    "C26_counters_exact_and_shared",
    "C26_hits_and_misses",
    "C26_pop_count_is_not_the_number_of_calls_refuted"
   ],
   "note": "For any wrapped container, several handles and resets; elapsed times are not modelled. The count of pop has two contradictory documentations: the size popped (proved) and the number of calls (refuted)."
  },
  {
   "property": "C27",
   "status": "proved",
   "theorems": [
    "C27_writer_excludes_everyone",
    "lock_example"
   ],
   "note": "Any number of clients below 2^62, all interleavings, spurious failures and poisoning included."
  },
  {
   "property": "C28",
   "status": "partial",
   "theorems": [
    "C28_state_is_holders_partial",
    "C28_free_lock_can_be_acquired",
    "C28_unlock_completes",
    "C28_poisoned_stays_poisoned",
    "C28_poisoned_never_acquired",
    "C28_spurious_failure_refuted",
    "C28_state_is_holders",
    "C28_failed_release_is_for_ever",
    "C28_exactly_when"
   ],
   "note": "Spurious failures of every weak exchange are covered: the state matches the holders at every moment of an execution without panics if and only if no first exchange of an exclusive unlock failed spuriously (C28_exactly_when). That one failure is a fault of the code (refuted): unlock returns without releasing, and in every execution from then on nobody ever holds the lock again."
  },
  {
   "property": "C29",
   "status": "partial",
   "theorems": [
    "C29_calls_do_not_overlap",
    "C29_guard_blocks_partial",
    "C29_contention_panics_refuted",
    "C29_two_pushes_panic_refuted",
    "C29_guard_does_not_block_refuted",
    "C29_write_back_overlaps_calls_refuted",
    "C29_write_backs_overlap_refuted",
    "C29_calls_one_at_a_time",
    "C29_reading_guards_coexist",
    "C29_lru_guards_race_refuted",
    "C29_example"
   ],
   "note": "No overlap is proved for all interleavings. The other clauses are false of the code: contending calls panic (two pushes included) and take/pop/take_multiple/flush can run while a get guard is alive; the write a BTree guard makes when dropped happens after the lock is released and can overlap any call; reading a value decorated with Lru through two guards of get at once writes it twice without synchronisation. What guards do protect against is proved."
  },
  {
   "property": "C30",
   "status": "proved",
   "theorems": [
    "C30_shared_ptr_destroyed_once",
    "C30_example"
   ],
   "note": "std Arc taken at its documented behaviour."
  },
  {
   "property": "C31",
   "status": "partial",
   "theorems": [
    "C31_never_removed_too_early",
    "C31_removed_after_last_drop_partial",
    "C31_spurious_failure_leaks_refuted",
    "C31_temp_file_name_removed_at_creation_refuted",
    "C31_example"
   ],
   "note": "Safety for all interleavings including spurious failures; removal after the last drop without them (refuted with them). A temporary stream loses its file name at creation already."
  },
  {
   "property": "C32",
   "status": "partial",
   "theorems": [
    "C32_never_freed_while_alive",
    "C32_never_freed_refuted",
    "C32_all_dropped"
   ],
   "note": "Never freed while alive; the second half is false: never freed at all."
  },
  {
   "property": "C33",
   "status": "proved",
   "theorems": [
    "C33_kmin_keeps_greatest",
    "C33_kmin_refuses_duplicates",
    "C33_kmin_not_minimal"
   ],
   "note": ""
  },
  {
   "property": "C34",
   "status": "proved",
   "theorems": [
    "C34_log2_is_floor",
    "C34_chunk_size_is_next_power_of_two",
    "C34_chunk_size_overflow",
    "C34_chunk_size_zero"
   ],
   "note": ""
  },
  {
   "property": "C35",
   "status": "partial",
   "theorems": [
    "C35_write_then_read",
    "C35_write_changes_only_its_range",
    "C35_read_returns_range",
    "C35_write_in_pieces",
    "C35_read_in_pieces",
    "C35_seek_clamped",
    "C35_resize_truncates_or_extends",
    "C35_clones_have_their_own_position",
    "C35_clones_share_contents",
    "C35_never_panics_unless_shrunk_partial",
    "C35_one_handle_never_panics",
    "C35_write_panics_iff",
    "C35_shrunk_by_clone_panics_refuted",
    "C35_file_would_write",
    "C35_is_empty_inverted_refuted",
    "C35_file_stream_unreadable_refuted"
   ],
   "note": "Proved for vector streams, all histories. Exceptions, all exhibited: a write panics after a clone shrank the stream below the position; the provided is_empty is inverted; a FileStream is opened write-only and cannot be read."
  },
  {
   "property": "C36",
   "status": "partial",
   "theorems": [
    "C36_iovec_is_a_vector",
    "C36_swap_remove_beyond_end_refuted",
    "C36_get_mut_writes_next_element_refuted",
    "C36_into_iter_starts_at_cursor",
    "C36_into_iter_after_append_refuted",
    "C36_iteration_stops_early_refuted"
   ],
   "note": "Append, length, iteration, get and swap_remove (index in range) are those of a vector, for every history. Refuted: swap_remove beyond the end, get_mut with a longer value, into_iter after an append, chunks larger than the read buffer alignment."
  },
  {
   "property": "C37",
   "status": "partial",
   "theorems": [
    "C37_size_within_capacity",
    "C37_contains",
    "C37_take",
    "C37_push",
    "C37_everything_or_room",
    "C37_pop",
    "C37_get",
    "C37_get_mut_partial",
    "C37_any_history",
    "C37_get_mut_growth_corrupts_refuted",
    "C37_file_stream_panics_refuted"
   ],
   "note": "Proved in full over vector streams for a round-tripping codec; get_mut only for values that stay in their chunk (a growing value corrupts its neighbour, refuted). Over a FileStream, which is opened write-only, every lookup panics (refuted)."
  },
  {
   "property": "C38",
   "status": "partial",
   "theorems": [
    "C38_flush_returns_from_cursors_partial",
    "C38_flush_after_push_loses_all_refuted",
    "C38_take_multiple_returns_partial",
    "C38_take_multiple_removes_nothing_refuted"
   ],
   "note": "False of the code: flush returns only what follows the position of each stream (nothing after a push) and drops the rest; take_multiple removes nothing. What it does is proved exactly."
  },
  {
   "property": "C39",
   "status": "proved",
   "theorems": [
    "C39_any_history",
    "C39_size_exact",
    "C39_push",
    "C39_push_keeps",
    "C39_pop",
    "C39_take",
    "C39_contains",
    "C39_flush",
    "C39_laws",
    "C39_push_evicts_needlessly_refuted",
    "C39_empty_push_evicts_refuted",
    "C39_file_stream_stores_nothing_refuted"
   ],
   "note": "Over vector streams, any lossless byte compression and any round-tripping vector codec. Stronger facts a user may expect are refuted: push may evict although everything fits (the length header is counted twice), pushing nothing may evict, and over a file stream (opened write-only) nothing is ever stored."
  },
  {
   "property": "C40",
   "status": "partial",
   "theorems": [
    "C40_take_multiple_distinct_partial",
    "C40_take_multiple_contents",
    "C40_duplicate_stored_keys_panic_refuted",
    "C40_duplicate_stored_keys_wrong_key_refuted"
   ],
   "note": "False of the code for duplicate stored keys: it panics or drops a key it has not found (refuted). With distinct stored keys the whole property holds for any requested keys; with any stored keys, if the call returns, the pairs taken and kept are right."
  },
  {
   "property": "C41",
   "status": "partial",
   "theorems": [
    "C41_same_results_partial",
    "C41_progress_partial",
    "C41_example",
    "C41_cut_request_refuted"
   ],
   "note": "Proved for any container, any sequence of calls and any fragmentation and delay of the bytes as long as no read of the server times out in the middle of a request: same results, same state, and every call gets its answer. False otherwise: a request delayed by 100 ms in its middle is dropped in half and the rest taken for another request (pop(7) then acts as flush())."
  },
  {
   "property": "C42",
   "status": "partial",
   "theorems": [
    "C42_clients_bounded",
    "C42_clients_reached",
    "C42_responses_match_partial",
    "C42_cut_request_refuted",
    "C42_resend_refuted",
    "C42_disconnected_while_sending_refuted"
   ],
   "note": "The number of clients is exact, for all executions. Responses match requests, in order and computed by the container for that very client, for all executions without timeout in the middle of a request; refuted with one. The documented reconnection when sending fails never happens: the thread panics (refuted)."
  },
  {
   "property": "C43",
   "status": "partial",
   "theorems": [
    "C43_accepted_iff_described",
    "C43_builder_accepts",
    "C43_supported_builds",
    "C43_capacity_is_described",
    "C43_capacity_of_every_configuration",
    "C43_assemble_is_build",
    "C43_server_accepted_iff",
    "C43_server_id_ignored_refuted",
    "C43_empty_associative",
    "C43_flag_only_if_concurrent",
    "C43_flag_exactly",
    "C43_concurrent_not_flagged_refuted",
    "C43_exponent_ignored_refuted"
   ],
   "note": "Acceptance, and the capacity of what is built, are proved for every configuration, those of servers included. The concurrency clause is half true: the flag is set only on concurrent containers, but not on Associative, FlushStopper or Profiler over concurrent ones (refuted). The documented Lrfu exponent is ignored, and so is the documented id of server configurations (refuted). toml text parsing is not modelled."
  },
  {
   "property": "C44",
   "status": "proved",
   "theorems": [
    "C44_cut_is_shortest_suffix"
   ],
   "note": ""
  },
  {
   "property": "C45",
   "status": "partial",
   "theorems": [
    "C45_array_pop_zero_evicts_one",
    "C45_pop_zero_refuted",
    "C45_btree_pop_zero_evicts_one",
    "C45_btree_pop_zero_refuted",
    "C45_compressed_pop_zero_evicts_one_refuted"
   ],
   "note": "False of the code: pop(0) on a non-empty Array, BTree or Compressed evicts one element (proved for every state of each, and that it is the greatest for Array and BTree)."
  },
  {
   "property": "C46",
   "status": "partial",
   "theorems": [
    "C46_write_visible_and_isolated",
    "C46_any_keys",
    "C46_array_size_exact",
    "C46_btree_size_exact",
    "C46_array_size_change_refuted",
    "C46_btree_grow_refuted",
    "C46_btree_size_0_refuted",
    "C46_compressed_write",
    "C46_compressed_write_too_large_panics_refuted"
   ],
   "note": "Proved for every get-ready architecture and every write that keeps the element size, and for Compressed whatever the size as long as the capacity is kept. Writes changing the size are not accounted for by Array and BTree, and a write beyond the capacity panics in Compressed (refuted)."
  },
  {
   "property": "C47",
   "status": "partial",
   "theorems": [
    "C47_dyn_same_results",
    "C47_dyn_take_multiple",
    "C47_into_concurrent",
    "C47_concurrent_trait",
    "C47_from_flag",
    "C47_stream_flagged_refuted"
   ],
   "note": "Calls proved. into_concurrent follows the flag exactly; the flag given by DynBuildingBlock::from is right except for Stream, which is flagged though not concurrent (refuted)."
  },
  {
   "property": "C48",
   "status": "proved",
   "theorems": [
    "C48_pop_evicts_greatest",
    "C48_pop_evicts_greatest_values"
   ],
   "note": "In the lexicographic order of (value, key), and hence of values."
  },
  {
   "property": "C49",
   "status": "partial",
   "theorems": [
    "C49_first_client_partial",
    "C49_bounded_steps_partial",
    "C49_second_client_refuted",
    "C49_example",
    "C49_gone_means_closed",
    "C49_gone_client_noticed"
   ],
   "note": "True while the first client is served, and within a bounded number of steps of the thread; the model of this theorem takes a reconnection as immediate, so it says nothing of a thread that waits in accept for its next client: see C71 for the exact moments. False from the second client on: the stream of a reconnection has no read timeout, so a silent client blocks stop_and_join for ever."
  },
  {
   "property": "C50",
   "status": "partial",
   "theorems": [
    "C50_array_late_is_prompt",
    "C50_btree_absent_while_alive_refuted",
    "C50_btree_late",
    "C50_btree_late_without_push",
    "C50_compressed_late",
    "C50_compressed_push_lost_refuted",
    "C50_compressed_taken_comes_back_refuted",
    "C50_bytestream_overwrites_refuted",
    "C50_bytestream_taken_comes_back_refuted",
    "C50_btree_panics_refuted"
   ],
   "note": "True of Array. BTree: the pair is out of the container until the drop, which puts it back exactly when its key is not held and it fits, and panics otherwise (proved for every history). Compressed: the drop of a written guard undoes everything done in between (proved for every history). ByteStream: the drop writes at a stale position (refuted)."
  },
  {
   "property": "C51",
   "status": "proved",
   "theorems": [
    "C51_components_may_be_replaced",
    "C51_sequential_is_interchangeable",
    "C51_erased_is_interchangeable",
    "C51_remote_is_interchangeable",
    "C51_erased_twice",
    "C51_wrapped_everywhere",
    "C51_sequential_everywhere",
    "C51_erased_everywhere",
    "C51_erased_with_take_multiple_refuted",
    "C51_told_apart",
    "C51_example",
    "C51_components_may_be_replaced_with_gets",
    "C51_sequential_is_interchangeable_with_gets",
    "C51_sequential_everywhere_with_gets",
    "C51_with_gets_implies",
    "C51_gets_tell_apart",
    "C51_gets_example"
   ],
   "note": "For every architecture. The theorems with gets take get and get_mut among the calls, wherever the code offers them (no type-erased container or socket client on the way down; the guard is dropped before the next call). A type-erased container can be told from the container by the keys take_multiple leaves (refuted)."
  },
  {
   "property": "C52",
   "status": "partial",
   "theorems": [
    "C52_accepted_iff_partial",
    "C52_same_container_partial",
    "C52_as_config_build_partial",
    "C52_server_accepted",
    "C52_decorators_rejected_refuted",
    "C52_nested_decorator_panics_refuted",
    "C52_three_sets_refuted",
    "C52_layers_refuted",
    "C52_hasher_refuted",
    "C52_compressed_refuted",
    "C52_stream_refuted",
    "C52_example"
   ],
   "note": "Acceptance is characterised for every builder: exactly those without decorator, Inclusive or invalid address inside. Behaviour is proved equal for builders without byte streams whose Associatives use the standard hasher and a power of two of sets; a Fifo or Lru decorator is supported at the top by as_config().build() only. Elsewhere false of the code (refuted): decorators and Inclusive are rejected or panic, other numbers of sets and added layers choose other sets, Compressed and Stream in memory become write-only temporary files."
  },
  {
   "property": "C53",
   "status": "proved",
   "theorems": [
    "C53_array_size_arithmetic_exact",
    "C53_btree_size_arithmetic_exact",
    "C53_nested_size_exact",
    "C53_nested_capacity_exact",
    "C53_no_overflow_in_any_architecture",
    "C53_debug_push_panics_exactly_out_of_range",
    "C53_release_push_wraps_refuted",
    "debug_right",
    "release_right"
   ],
   "note": "For every bound of the machine integers, checked (debug) and wrapping (release) arithmetic. Beyond the range a debug build panics (proved exactly, for Array) and a release build takes in more than the capacity (C53_release_push_wraps_refuted)."
  },
  {
   "property": "C54",
   "status": "proved",
   "theorems": [
    "C54_linearizable",
    "C54_real_time_order",
    "C54_same_as_sequential",
    "C54_nothing_lost",
    "C54_atomic_linearizable",
    "C54_atomic_calls_do_not_overlap",
    "C54_atomic_lock_is_holders",
    "C54_atomic_nothing_lost"
   ],
   "note": "For every call but get and get_mut, whose guards write back without a lock (refuted in C29). Calls may panic on contention (refuted in C29): such a call takes no effect and does not disturb the others. The C54_atomic theorems say it down to the loads and weak exchanges of the lock (fewer than 2^62 threads), with spurious failures, panics and poison."
  },
  {
   "property": "C55",
   "status": "partial",
   "theorems": [
    "C55_answers_of_the_container",
    "C55_counts_exact",
    "C55_counts_never_ahead",
    "C55_poisoned_for_ever",
    "C55_why_it_panics",
    "C55_two_lookups_panic_refuted",
    "C55_evicted_pair_lost_refuted",
    "C55_pop_poisons_refuted",
    "C55_sizes_not_exact_refuted",
    "C55_sizeless"
   ],
   "note": "True for all interleavings: threads get the answers of the wrapped container, and counts of calls, elements, hits and misses are exact when all calls have returned. False: the counters are borrowed exclusively and without waiting, so even two lookups can panic, after the effect of the call (evicted pairs are lost); a pop during which another thread pushes panics while holding the counters, after which no call ever returns (proved for every execution); sizes include what other threads moved. C55_why_it_panics: these are the only panics (with those of the wrapped container)."
  },
  {
   "property": "C56",
   "status": "partial",
   "theorems": [
    "C56_clone_shares",
    "C56_copy_is_new",
    "C56_handles_agree",
    "C56_other_containers_untouched",
    "C56_one_container",
    "C56_nothing_lost",
    "C56_every_call_answers",
    "C56_fifo_order_refuted"
   ],
   "note": "All proved for every Concurrent container and every sequence of clones, copies and calls, except that answers equal those through one handle only if no Fifo is inside: the clone of a Fifo gets its own counter, and C56_fifo_order_refuted shows a pair pushed last leaving first. Contents, sizes, conservation and absence of panics hold with Fifo too."
  },
  {
   "property": "C57",
   "status": "proved",
   "theorems": [
    "C57_no_data_race",
    "C57_no_deadlock",
    "C57_concurrent_types_guarded",
    "C57_flagged_types_guarded",
    "C57_flagged_configs_guarded",
    "C57_unguarded_races",
    "C57_every_call_takes_the_lock",
    "C57_stream_race_refuted",
    "C57_panic_blocks_for_ever_refuted",
    "C57_config_tree_shape"
   ],
   "note": "For the methods of BuildingBlock (get and get_mut: C29). The conditions are needed: Stream is flagged concurrent when boxed though it is not, and races (refuted); a call that panics on contention keeps the lock, after which no call on the container ever gets past its first step (refuted)."
  },
  {
   "property": "C58",
   "status": "proved",
   "theorems": [
    "C58_alone",
    "C58_nothing_lost",
    "C58_never_invented",
    "C58_right_set",
    "C58_no_panic",
    "C58_goes_on",
    "C58_bounded_calls",
    "C58_contains_at_a_moment",
    "C58_take_at_a_moment",
    "C58_take_multiple",
    "C58_capacity_and_size",
    "C58_every_architecture",
    "C58_btree_sets",
    "C58_size_of_no_moment_refuted",
    "C58_nothing_lost_with_gets",
    "C58_get_at_a_moment",
    "C58_no_panic_with_gets",
    "C58_right_set_with_gets",
    "C58_every_architecture_with_gets",
    "C58_gets_example"
   ],
   "note": "A call on one set is one step (for Sequential sets: C54), or a panic on contention (C29). Sets: any container keeping the laws for any pushed keys, without another Associative inside (C58_every_architecture), and BTree when the keys of each pushed vector are distinct (C58_btree_sets). The theorems with gets: get and get_mut among the calls of the threads, from taking the guard to dropping it one step on one set (guards kept across other calls: C70); writes through a guard keep the size of the element, as in C46; for these runs what is proved is that nothing is lost, what each get showed and did, the right set, the capacity and the absence of panics."
  },
  {
   "property": "C59",
   "status": "partial",
   "theorems": [
    "C59_score_is_a_number",
    "C59_total_order_at_one_time",
    "C59_untouched_by_age",
    "C59_young_strictly_by_age",
    "C59_ages_told_apart_refuted",
    "C59_nan_exponent_refuted",
    "C59_order_does_not_depend_on_time_refuted",
    "C59_cell_below_itself_refuted",
    "C59_clock_set_back"
   ],
   "note": "Scores are numbers and compare as a total order at one time, and cells never accessed are ordered by age, proved for binary32 with rounding (differences of times below 2^127). False of the code: NaN is accepted as an exponent and then every comparison is Equal; ages beyond 2^24 ticks may compare equal; two cells may change order as time passes, by rounding; the two readings of the clock in one comparison."
  },
  {
   "property": "C60",
   "status": "proved",
   "theorems": [
    "C60_iterators_are_detached",
    "C60_iterators_of_inclusive_are_detached",
    "C60_as_if_handed_over_at_once",
    "C60_empty_at_the_end_of_the_call",
    "C60_pulled_and_unpulled",
    "C60_profiler_counts_pulls"
   ],
   "note": "For callers who push as the tree demands (new distinct keys where a BTree or Compressed occurs, no pop through an Associative); beyond, as long as nothing panics. Stream owns its streams in the model, so its iterator is detached by construction (what it yields: C38)."
  },
  {
   "property": "C61",
   "status": "proved",
   "theorems": [
    "C61_same_answers",
    "C61_same_answers_to_distinct_pairs",
    "C61_fifo_same_answers",
    "C61_lru_same_answers",
    "C61_equal_values_refuted",
    "C61_zero_sizes_refuted",
    "C61_example",
    "C61_fifo_example",
    "C61_same_answers_with_gets",
    "C61_fifo_same_answers_with_gets",
    "C61_lru_same_answers_with_gets",
    "C61_lru_example"
   ],
   "note": "The vector of keys left by take_multiple is not compared (C51: containers differ in it). Equal values and elements of size 0 are told apart by Array and BTree (the two refutations: why the hypotheses are there). No FlushStopper inside an Associative; decorators at the root only. The theorems with gets need get offered (no type-erased container or socket on the way, as in the code) and writes that keep the size of the element."
  },
  {
   "property": "C62",
   "status": "proved",
   "theorems": [
    "C62_cache_is_transparent",
    "C62_sync_writes_everything",
    "C62_example"
   ],
   "note": "Every tree of the model, every store and sequence of reads, writes, updates, prefetches, evictions, write-backs and flushes. Where the containers themselves are not faithful the client is restricted: get and get_mut only where C46 and C13 hold (writes in place keep the size of the element), pop not with an Associative (C17). Inclusive and ByteStream are not among the trees."
  },
  {
   "property": "C63",
   "status": "proved",
   "theorems": [
    "C63_levels_are_one_lru",
    "C63_newest_in_front",
    "C63_larger_lru_never_misses_more",
    "C63_fifo_level",
    "C63_larger_fifo_refuted",
    "C63_example"
   ],
   "note": "Levels: Arrays and BTrees counting elements by one, stacked by Exclusive (every front with a capacity of at least one) and wrapped by FlushStopper, Sequential, Profiler, and in the back also DynBuildingBlock and SocketClient. The clock readings strictly increase. The refutation shows that the monotonicity is a property of Lru, not of caches: Fifo has Belady anomaly."
  },
  {
   "property": "C64",
   "status": "partial",
   "theorems": [
    "C64_array_is_a_cache",
    "C64_lrfu_over_array_is_a_cache",
    "C64_array_evicts_greatest_scores",
    "C64_array_evicts_least_score_refuted",
    "C64_btree_loses_nothing",
    "C64_btree_held_keys_panic",
    "C64_lrfu_over_btree_refuted",
    "C64_btree_new_keys",
    "C64_btree_absent_keys",
    "C64_btree_pop_size_refuted",
    "C64_fixed_order_array",
    "C64_fixed_order_btree"
   ],
   "note": "Over an Array the whole contract is proved for every comparison, sort and history, and the eviction by score when scores are further apart than two readings of the clock. False of the code otherwise: closer scores may evict the least one, and over a BTree every take, get, get_mut and second push of a held key panics, and pop may return too much and leave a wrong size. Proved for BTree: nothing is lost, new keys are kept, absent keys answered, flush gives everything. Scores over the rationals (C59 treats f32); the panic that recent standard libraries may raise when a sort notices a wrong order is not modelled. C64_fixed_order_*: when the order does not move, this model computes exactly what the models of C01-C05 compute."
  },
  {
   "property": "C65",
   "status": "proved",
   "theorems": [
    "C65_now_follows_real_time",
    "C65_alone_by_one",
    "C65_after_the_wrap_refuted",
    "C65_fifo_as_unbounded",
    "C65_lru_as_unbounded",
    "C65_fifo_after_the_wrap_refuted",
    "C65_lru_after_the_wrap_refuted"
   ],
   "note": "Counter and Fifo counters of any width w (64 in the code). The wrap is shown to break the property for every width, so the bound is exact. The conversion of differences to f32 is left out; Clock (a monotonic wall clock) is not modelled."
  },
  {
   "property": "C66",
   "status": "partial",
   "theorems": [
    "C66_answers_are_sequential",
    "C66_no_panic_no_loss",
    "C66_no_thread_waits_for_ever",
    "C66_poison_is_final",
    "C66_what_is_kept",
    "C66_pushes_are_lost_refuted",
    "C66_unrelated_panic_loses_refuted",
    "C66_caught_panic_blocks_refuted",
    "C66_atomic_no_panic_no_loss",
    "C66_atomic_can_finish",
    "C66_guards_stay_atomic_partial",
    "C66_guards_no_thread_waits_for_ever_partial",
    "C66_guards_poison_is_final",
    "C66_guard_panic_hides_keys_refuted"
   ],
   "note": "Proved for all interleavings of panics and unwinding: answers are sequential, nothing that took effect is lost, no thread waits for ever, poison is final, and nothing is lost before a panic. Panics of owners of clones outside the calls are included. False of the code: even such an unrelated panic makes every later push lose its elements; after the panic of one thread the pushes of the others return an empty vector and their elements are lost (for any container, two threads that only push are enough); and if the panic is caught the lock is never released and the others wait for ever. With guards of get and get_mut and panics while they are held, the same is proved for the containers and calls of C70 (what was written before the panic stays); false of the code: after such a panic get answers None for keys that are held, whatever the key of the guard."
  },
  {
   "property": "C67",
   "status": "partial",
   "theorems": [
    "C67_undisturbed_wait_ends",
    "C67_undisturbed_unlock_ends",
    "C67_free_lock_is_taken",
    "C67_somebody_always_acquires",
    "C67_weak_wait_ends",
    "C67_weak_unlock_ends",
    "C67_weak_free_lock_is_taken",
    "C67_weak_somebody_always_acquires",
    "C67_starvation_refuted",
    "C67_waiting_never_pauses"
   ],
   "note": "C67_weak_*: also with spurious failures of the weak exchanges (each delays by at most three steps; somebody always acquires provided they are finitely many), other than the one of C28 which breaks the lock; no panics (C66). The last two sentences of the property are false of the code and refuted: a fair infinite execution in which one thread waits for ever in any mode while another acquires and releases in any mode, for every number of threads from 2 on; and the sleep and the yield between attempts are unreachable because nanos stays 1."
  },
  {
   "property": "C68",
   "status": "partial",
   "theorems": [
    "C68_counters",
    "C68_total_is_at_most_the_elapsed_time",
    "C68_hit_and_miss_times",
    "C68_inner_times_are_smaller",
    "C68_threads_total",
    "C68_hit_time_without_hit_refuted",
    "C68_total_overflow_refuted",
    "C68_threads_total_refuted",
    "bare_forward",
    "prof_forward"
   ],
   "note": "Everything is proved but the attribution of times to hits and misses, which is false of the code for take_multiple (refuted, with the exact law: both together are the times of the lookups plus those of take_multiple once more). Runs of one thread, except C68_threads_total: with n threads on clones time_stats() is at most n times the elapsed time, which is reached."
  },
  {
   "property": "C69",
   "status": "partial",
   "theorems": [
    "C69_same_results_partial",
    "C69_no_deadlock",
    "C69_bounded_work",
    "C69_answered",
    "C69_responses_match_partial",
    "C69_stop_partial",
    "C69_stop_refuted_if_large",
    "C69_stop_refuted",
    "C69_example"
   ],
   "note": "Same results under the assumption of C41 (no failure of the connection), responses match requests under that of C42 (no time-out in the middle of a request, no UnexpectedEof from a write). Stopping is refuted for every size of the buffers: a first client that does not read a response larger than the buffer blocks the thread for ever; C69_stop_partial is the positive extent: while the first client is served and what is to be written fits (a reconnection is taken as immediate, see C71 for the wait in accept)."
  },
  {
   "property": "C70",
   "status": "partial",
   "theorems": [
    "C70_guards_are_atomic_partial",
    "C70_reads_are_stable_partial",
    "C70_no_lost_update_partial",
    "C70_family_guards_are_atomic_partial",
    "C70_family_reads_are_stable_partial",
    "C70_family_no_lost_update_partial",
    "C70_take_under_a_guard_refuted",
    "C70_dangling_guard_refuted",
    "C70_btree_key_missed_refuted",
    "C70_btree_second_reader_refuted",
    "C70_compressed_lost_update_refuted",
    "C70_exclusive_get_moves_refuted"
   ],
   "note": "Proved for Array, and (family) for Arrays behind any nesting of Batch, Associative, FlushStopper and Decorator with Fifo, for the calls push, get, get_mut, contains, size, capacity (no_lost_update: without push). False of the code otherwise, refuted by executions: a take under a guard (a write to key 1 becomes the value of key 2; a read of nothing), a BTree key missed while another guard has it or has yet to put it back, an increment lost in a Compressed, two threads that only call get on an Exclusive (the guard of key 1 comes to show the value of key 2). Not covered: Lru and Lrfu (a read writes the timestamp), Profiler, a Sequential inside."
  },
  {
   "property": "C71",
   "status": "partial",
   "theorems": [
    "C71_stop_returns_iff",
    "C71_first_client",
    "C71_default_stops",
    "C71_loop_is_socket",
    "C71_socket_is_loop",
    "C71_connections_counted",
    "C71_bind_failure",
    "C71_accept_blocks_refuted",
    "C71_before_first_client_refuted",
    "C71_between_clients_refuted",
    "C71_silent_client_refuted",
    "C71_example",
    "C71_moments_example"
   ],
   "note": "The exact moments at which stopping returns, for every history (nothing in flight), and at every moment for a single-client server once connected. Refuted before the first client, between two clients when another one may be served, and while a client other than the first is silent: the thread is in accept or in a read without timeout and never looks at the stop signal."
  },
  {
   "property": "C72",
   "status": "partial",
   "theorems": [
    "C14_front_as_large_partial",
    "C14_lookups_and_flush",
    "C72_sequential_same",
    "C72_sequential_calls_same",
    "C72_sequential_waits_refuted",
    "C72_own_guard_blocks",
    "C72_copy_written_value_lost_refuted",
    "C72_compressed_stores_once",
    "C72_stream_stores_once",
    "C72_compressed_behind_refuted",
    "C72_stream_behind_refuted",
    "C72_sequential_behind_refuted",
    "C72_btree_in_front_of_back_refuted"
   ],
   "note": "True over a BTree and over pointers (C14, whose theorems quantify over these backs). False over the four other kinds: proved for every front, content, key and written function for copying containers, as an exact condition in every state for Sequential, and by runs through the calls for each kind."
  },
  {
   "property": "C73",
   "status": "partial",
   "theorems": [
    "C73_everyone_accounted",
    "C73_one_at_a_time",
    "C73_the_first_is_served",
    "C73_waiting_server_takes_partial",
    "C73_one_by_one_partial",
    "C73_forgotten_client_refuted",
    "C73_reset_is_final"
   ],
   "note": "One at a time, in order, at most 1 + n, and who is refused, are proved for all executions; so is that everyone is served when clients connect one by one while the server waits. False of the code in general: two clients that connect between bind and accept both succeed, but only the first is served; the connection of the other is reset for good (its calls panic), even if the server goes on with further clients. The behaviour of the operating system (queue of completed connections, reset when the listener is closed) is assumed."
  },
  {
   "property": "C74",
   "status": "partial",
   "theorems": [
    "C74_linearizable",
    "C74_everyone_is_answered",
    "C74_nothing_lost",
    "C74_served_alone",
    "C74_contention_stops_all_servers_refuted"
   ],
   "note": "Messages, not bytes (C41, C42, C69 have the bytes). The last sentence of the property is false of the code and refuted for every container whose push succeeds: the panic of Sequential under contention (C29) kills the thread of a server while it holds the lock; from then on, in every execution, no call of any client of the two servers is answered except the one already in its last steps."
  },
  {
   "property": "C75",
   "status": "partial",
   "theorems": [
    "C75_enough_storage",
    "C75_only_writes_need_room",
    "C75_every_state_is_one",
    "C75_lookups",
    "C75_get_mut",
    "C75_get_mut_fits",
    "C75_take_multiple",
    "C75_push_one",
    "C75_push",
    "C75_pushes_from_new",
    "C75_take",
    "C75_not_handed_back_means_held_refuted",
    "C75_push_never_panics_refuted",
    "C75_take_removes_only_its_element_refuted"
   ],
   "note": "Full streams: contains, get, take_multiple, push and take, with the exact bytes take leaves; every call but push and get_mut does in every state what it does over unlimited streams of the same bytes (C75_only_writes_need_room; for those C37 and C38 say what); get_mut over streams that may be full: C75_get_mut gives the bytes it leaves, or that it panics, for every value, and C75_get_mut_fits the elements when the new value fits in the room of the old one. The last three sentences of the property are false of the code and refuted, the first two for every element concerned. Errors other than lack of room (of reads and seeks) are not modelled."
  },
  {
   "property": "C76",
   "status": "proved",
   "theorems": [
    "C76_what_is_written",
    "C76_every_call",
    "C76_same_lookups",
    "C76_enough_storage",
    "C76_failed_call",
    "C76_get_mut",
    "C76_hypotheses_hold",
    "C76_failed_push_keeps_contents_refuted"
   ],
   "note": "Every call and every state; the three states after a failed call for every compressor whose cut frames decode to the beginning of the content or fail, and every codec whose cut vectors do not decode (C76_hypotheses_hold gives such a pair). The last sentence of the property is false of the code and refuted. Storage fails for lack of room only; the writes of the encoder count as one write_all."
  },
  {
   "property": "C77",
   "status": "proved",
   "theorems": [
    "C77_all_or_nothing",
    "C77_nothing_lost",
    "C77_lookups",
    "C77_get_mut",
    "C77_no_fault",
    "C77_panic",
    "C77_lookups_always_right_refuted",
    "C77_panic_keeps_contents_refuted"
   ],
   "note": "For every pattern of faults; the faults of the reading clone and of the writing handle are independent. C77_panic needs the two hypotheses of C76 on cut frames and cut vectors, met by C76_hypotheses_hold. The last sentence of the property is false of the code and refuted. In C77_get_mut the clone that reads and the one that writes back meet the same list of faults. A read_to_end is one read that works or fails."
  },
  {
   "property": "C78",
   "status": "proved",
   "theorems": [
    "C78_returns_right",
    "C78_take_pop",
    "C78_get_mut",
    "C78_flush",
    "C78_push",
    "C78_history",
    "C78_found_is_held",
    "C78_size",
    "C78_push_loses_in_silence_refuted",
    "C78_size_within_capacity_refuted",
    "C78_short_read_misses_refuted",
    "C78_short_read_loses_refuted",
    "C78_short_write_invents_refuted"
   ],
   "note": "Faults are those of each handle, of the clones made of it, and of the clones of these (all clones of one depth meet the same); streams a call creates have their own. Whole faults (an operation works or fails with nothing done) everywhere but in C78_found_is_held, where reads and writes may also be short. The last sentence of the property is false of the code and refuted, each point by a run. get_mut as in C37, for values that stay in their chunk. flush returns what it returns without failures (C38 says what: not what is before the position of each stream), or panics. Not covered: the state a panic leaves."
  }
 ]
}