{
 "claims": [
  {
   "property": "C01",
   "status": "partial",
   "theorems": [
    "C01_lookup_follows_history_partial",
    "C01_background_invisible_partial",
    "C01_lookup_follows_history_refuted"
   ],
   "note": "Proved for every run of writes and background steps (rotation, incorporation, flushes, splits, compactions cut into their separately published parts) in which each step meets the stated guard; the unguarded statement is refuted by concrete runs of the code (wrong filter offsets after a flush during a compaction, among others). Writes are atomic at this level; C08 and C13 give the memtable tree and the packed branches."
  },
  {
   "property": "C02",
   "status": "partial",
   "theorems": [
    "C02_other_keys_undisturbed_partial"
   ],
   "note": "As C01: any run continued by any writes to one key and any background steps within the guard."
  },
  {
   "property": "C03",
   "status": "proved",
   "theorems": [
    "C03_merge_timing_unobservable",
    "C03_groupings_agree",
    "C03_definitive_hides_older"
   ],
   "note": "All groupings of any message list; callbacks subject to lawful_merge (Spec.v)."
  },
  {
   "property": "C04",
   "status": "partial",
   "theorems": [
    "C04_tree_forward_scan",
    "C04_tree_forward_scan_above",
    "C04_tree_clamped_starts_refuted",
    "C04_iterator_exact_partial",
    "C04_trunk_range_exact_partial"
   ],
   "note": "Tree level: for every tree made by writes, every pair of bounds and every start key, a forward scan yields exactly the tuples of the range from the start. Merge level: see C06, C07. Database level: after every guarded run (C01), an iterator started anywhere lists exactly the dictionary from there on, with the values lookups return, whatever background work comes between the calls; the same for trunk_range. Missing: runs outside the guard, more than 256 branches on the way to a leaf, and writes between the calls."
  },
  {
   "property": "C05",
   "status": "partial",
   "theorems": [
    "C05_tree_backward_scan",
    "C05_tree_backward_scan_from",
    "C05_tree_cursor_partial",
    "C05_tree_reverse_from_gap_refuted",
    "C05_tree_keys_lost_refuted",
    "C05_backward_scan_mirrors_forward",
    "C05_start_below_a_bound_refuted",
    "C05_stepping_back_skips_keys_refuted",
    "C05_no_way_back_refuted"
   ],
   "note": "Tree level: backward scans from below any start key are exact, and the iterator is an exact cursor for the starts listed. Merge level: a backward scan from the end mirrors the forward one for any sources. Refuted in the code: a start that falls after the last key of a leaf loses all smaller keys when stepping back; a merge started below a bound skips the greatest keys; at database level, stepping back into the previous leaf skips keys, and behind the last key the way back is closed if the last leaf is empty."
  },
  {
   "property": "C06",
   "status": "proved",
   "theorems": [
    "C06_full_merge_returns_only_values"
   ],
   "note": "Whole forward scans of merges of any sources; callbacks subject to lawful_merge."
  },
  {
   "property": "C07",
   "status": "proved",
   "theorems": [
    "C07_full_merge_is_the_dictionary",
    "C07_intermediate_merge_keeps_every_effect",
    "C07_raw_merge_is_a_sorted_permutation",
    "C07_too_many_sources_refused"
   ],
   "note": "Any number of sources below 1024 (more are refused), any sorted tuples, any mixture of messages, all three merge modes; qsort modelled as insertion sort."
  },
  {
   "property": "C08",
   "status": "proved",
   "theorems": [
    "C08_insertions_make_a_map",
    "C08_lookup_means_history",
    "C08_leaves_are_chained",
    "C08_default_configuration"
   ],
   "note": "Any sequence of writes, any page size; keys up to about a tenth of the page (378 bytes for 4096), merged messages within the message limit; insertions are atomic (no lock steps)."
  },
  {
   "property": "C09",
   "status": "proved",
   "theorems": [
    "C09_leaf_page_edits",
    "C09_index_page_edits",
    "C09_leaf_defragment_room",
    "C09_index_defragment_room"
   ],
   "note": "Byte-level pages of any size below 2^16, any sequence of edits; leaf and index encodings."
  },
  {
   "property": "C10",
   "status": "proved",
   "theorems": [
    "C10_leaf_split",
    "C10_index_split"
   ],
   "note": "Any leaf with entries within the inline limits on pages of at least 1240 bytes; index pages with keys up to about a tenth of the page."
  },
  {
   "property": "C11",
   "status": "proved",
   "theorems": [
    "C11_page_search"
   ],
   "note": "Any strictly increasing key array, any target, any total order."
  },
  {
   "property": "C12",
   "status": "proved",
   "theorems": [
    "C12_route_less_than_or_equal",
    "C12_route_less_than",
    "C12_route_greater",
    "C12_greater_without_premise_refuted"
   ],
   "note": "All four modes with the first pivot not past the target, as callers guarantee; the greater modes are refuted without that premise (no caller uses them)."
  },
  {
   "property": "C13",
   "status": "proved",
   "theorems": [
    "C13_pack_keeps_the_stream",
    "C13_pack_reads_the_stream",
    "C13_pack_reports_the_limit",
    "C13_pack_oversize_tuple_refuted"
   ],
   "note": "Any stream of distinct keys in order with tuples that fit a page, any page size, any division of pages into extents, up to F^7 tuples where F is the least number of keys in an index page (the code has 8 levels and asserts beyond). A tuple too big for a page aborts the pack (C13_pack_oversize_tuple_refuted)."
  },
  {
   "property": "C14",
   "status": "proved",
   "theorems": [
    "C14_lookup_exact",
    "C14_no_false_negatives",
    "C14_add_never_aborts",
    "C14_block_layout",
    "C14_crowded_index_refuted",
    "C14_default_geometry_crowded_refuted",
    "C14_index_size_refuted",
    "C14_empty_filter_refuted",
    "C14_value_31_refuted"
   ],
   "note": "All sequences of batches of 32-bit hashes, any geometry with a power-of-two index size, any memory contents: lookups report exactly the values of the batches holding a hash with the same top bits; adds never abort while each index fits its page. Values must be below 31 for the caller loop and their bit size must not go down. Refuted: crowded index (also with the default geometry), index sizes that are not powers of two, an empty first batch, values from 31. The async lookup and page allocation are not modelled."
  },
  {
   "property": "C15",
   "status": "proved",
   "theorems": [
    "C15_pack_round_trip",
    "C15_reads_agree",
    "C15_set_changes_one_item",
    "C15_pack_nothing_refuted",
    "C15_wide_items_refuted"
   ],
   "note": "All widths 1..32, all starting item numbers, all non-empty lists of b-bit integers; bits outside the fields unchanged. Packing nothing asserts, and items wider than b bits damage their neighbour (refuted theorems)."
  },
  {
   "property": "C16",
   "status": "partial",
   "theorems": [
    "C16_flush_preserves_partial",
    "C16_filter_ring_overrun_refuted"
   ],
   "note": "Any state reached by a guarded run; refuted when the ring of 24 subbundle filters overflows, which the code never checks."
  },
  {
   "property": "C17",
   "status": "partial",
   "theorems": [
    "C17_compaction_preserves_partial",
    "C17_flush_during_compaction_refuted",
    "C17_empty_compaction_refuted",
    "C17_renumbered_bundles_refuted",
    "C17_reused_bundle_number_refuted"
   ],
   "note": "Any state reached by a guarded run, every step of a compaction, interleaved with flushes, splits and other compactions. Four refutations: a flush between merge and replacement, an empty output in front of other bundles (two ways), and reuse of a bundle number."
  },
  {
   "property": "C18",
   "status": "partial",
   "theorems": [
    "C18_split_is_even",
    "C18_split_keys_ascend_partial",
    "C18_split_keys_found",
    "C18_split_plan_bounds",
    "C18_chosen_split_preserves_partial",
    "C18_equal_split_keys_refuted",
    "C18_split_key_array_refuted",
    "C18_split_preserves_partial"
   ],
   "note": "Any state reached by a guarded run. The guard asks that the pivot was just flushed (the code splits right after the flush), that the leaf is not empty and that the split keys ascend strictly. The choice of the split keys (Split.v) is proved to ascend, and to cut evenly, if the pivots with the same key have less than the bytes wanted for a leaf; refuted otherwise (equal split keys, an empty leaf). The rough iterators over the branches are lists of keys with counts, not tied to the branches of the leaf; the estimate of distinct keys is arbitrary."
  },
  {
   "property": "C19",
   "status": "proved",
   "theorems": [
    "C19_linearizable"
   ],
   "note": "Full linearizability of inserts and lookups (Spec_Linear.v), all schedules of any number of inserters, readers, iterators and flushing threads, one shared access per step, sequentially consistent memory. The tree is its list of incorporated writes here (C16-C18 for what is inside); the two locks are atomic (C21)."
  },
  {
   "property": "C20",
   "status": "proved",
   "theorems": [
    "C20_no_abort",
    "C20_progress",
    "C20_in_order",
    "C20_tree_is_prefix",
    "C20_content_kept",
    "C20_slot_reuse",
    "C20_nothing_left"
   ],
   "note": "Same model as C19: no assertion fails, progress, retirement in order, contents dropped only after incorporation and with no iterator on them, no incorporation forgotten in whatever order compactions end. A memtable is assumed full only when it is not empty (configuration). An open iterator keeps its slot from reuse, so inserts can stall (example)."
  },
  {
   "property": "C21",
   "status": "proved",
   "theorems": [
    "C21_readers_excluded",
    "C21_one_claim",
    "C21_exclusive_is_claim",
    "C21_no_abort",
    "C21_lock_progress"
   ],
   "note": "All interleavings of any number of threads, one shared access per step, sequentially consistent memory; includes lock progress."
  },
  {
   "property": "C22",
   "status": "partial",
   "theorems": [
    "C22_held",
    "C22_one_copy",
    "C22_stays",
    "C22_exclusive",
    "C22_one_claim",
    "C22_writeback",
    "C22_leaves",
    "C22_mark_dirty",
    "C22_dirty_stays",
    "C22_uncached",
    "C22_found",
    "C22_prefetch_refuted",
    "C22_noreqs_refuted",
    "C22_evict_all_refuted",
    "C22_wrap_refuted",
    "C22_pin_refuted",
    "C22_sync_refuted"
   ],
   "note": "As stated it is false: prefetch and asynchronous gets that give up, 8-bit counters, discards of pinned entries (the _refuted theorems). Proved for all schedules of any number of threads and entries, one shared access per step, in which callers keep their rules and neither a 256th reference through one counter nor an abandoned load that another getter has found happens."
  },
  {
   "property": "C23",
   "status": "proved",
   "theorems": [
    "C23_never_in_use",
    "C23_counts_exact",
    "C23_result",
    "C23_in_use",
    "C23_abort_iff_misuse",
    "C23_alloc_complete",
    "C23_no_space_concurrent_refuted",
    "C23_init"
   ],
   "note": "All interleavings over any number of extents; spurious NO_SPACE under concurrency is a proved refutation."
  },
  {
   "property": "C24",
   "status": "proved",
   "theorems": [
    "C24_distinct",
    "C24_exclusive",
    "C24_step_owns",
    "C24_abort_only_full",
    "C24_no_deadlock",
    "C24_batch_lock",
    "C24_reclaim",
    "C24_shared",
    "C24_zap_leaks_refuted",
    "C24_keyed_release",
    "C24_destroy_unused"
   ],
   "note": "All interleavings of any number of threads with each other and with the rest of the system, any number of batches, metadata pages and reloads; entries must fit an empty metadata page. Dropping the last reference without the release leaks the reserves (C24_zap_leaks_refuted: shard_log_zap does that)."
  },
  {
   "property": "C25",
   "status": "proved",
   "theorems": [
    "C25_visits",
    "C25_keeps",
    "C25_blocked",
    "C25_all_freed",
    "C25_freed_once",
    "C25_abort_only_full",
    "C25_progress"
   ],
   "note": "Any layout with ascending keys per batch, any ranges, any number of threads and any interleaving with each other, with blocking range queries and with reuse of freed extents. Callers must hold covering references while they take a new one or block (stated in kreach)."
  },
  {
   "property": "C26",
   "status": "partial",
   "theorems": [
    "C26_reopen",
    "C26_accepted",
    "C26_close_with_backlog_refuted",
    "C26_close_finalizes"
   ],
   "note": "Closing is refuted: with the largest backlog that inserts allow, closing fails an assertion; with one fewer waiting memtable the last memtable is finalized. C26_reopen and C26_accepted: a database closed completely is served again with the same root, counts and pages. Missing: that the pages written by a close are those of the database (assumed in ws_close; C49_flush shows it for the cache alone) and the link from pages to lookups."
  },
  {
   "property": "C27",
   "status": "partial",
   "theorems": [
    "C27_only_closed",
    "C27_refused",
    "C27_counts_refuted",
    "C27_failed_create_refuted",
    "C27_dead_create_refuted",
    "C27_meta_refuted"
   ],
   "note": "As stated it is false for a crash inside close. All histories of create, open, work and close with crashes at any write, starting from a device without a database. Accepted only after a complete super block of a close. Violated for crashes inside close, and for failed creates over a closed database (C27_counts_refuted, C27_failed_create_refuted, C27_dead_create_refuted); a damaged meta page aborts (C27_meta_refuted)."
  },
  {
   "property": "C28",
   "status": "proved",
   "theorems": [
    "C28_oversized_refused",
    "C28_insert_and_delete_accepted"
   ],
   "note": "Refusal for every tree; acceptance of inserts and deletes for every tree built by insertions."
  },
  {
   "property": "C29",
   "status": "partial",
   "theorems": [
    "C29_no_abort_within_bounds",
    "C29_accepted_updates_abort_refuted",
    "C29_inline_sized_inserts_abort_refuted",
    "C29_renumbered_bundles_abort_refuted",
    "C29_twelfth_incorporation_aborts_refuted"
   ],
   "note": "False as stated: proved counterexamples (growing merges; long keys; a twelfth incorporation before filters are built; a compaction that empties a bundle in front of another one). What holds: no abort while merged messages and keys stay within the stated bounds."
  },
  {
   "property": "C30",
   "status": "proved",
   "theorems": [
    "C30_buffers_safe",
    "C30_value_exact",
    "C30_operations_exact",
    "C30_use_after_deinit_refuted"
   ],
   "note": "Any history of lookups, resizes and copies over a result buffer, caller-supplied or owned; reuse after deinit is refuted (store through NULL)."
  },
  {
   "property": "C31",
   "status": "proved",
   "theorems": [
    "C31_default_order",
    "C31_dict_total",
    "C31_infinite_keys",
    "C31_default_order_unbounded_refuted"
   ],
   "note": "Total order for strings shorter than 2^31 bytes; refuted beyond (int truncation in slice_lex_cmp)."
  },
  {
   "property": "C32",
   "status": "proved",
   "theorems": [
    "C32_key_roundtrip",
    "C32_tuple_roundtrip",
    "C32_key_bound_sharp"
   ],
   "note": "Round trips at byte level for keys below 65534 bytes and tuples below 65536 bytes."
  },
  {
   "property": "C33",
   "status": "partial",
   "theorems": [
    "C33_disjoint_sources_are_a_cursor",
    "C33_next_then_prev_refuted",
    "C33_valid_iterator_has_a_tuple_refuted",
    "C33_prev_then_next_refuted"
   ],
   "note": "False as stated: two proved counterexamples for a key held by two sources, and one at database level where next is refused after prev. What holds: with disjoint sources the merge iterator is an exact cursor under any steps."
  },
  {
   "property": "C34",
   "status": "proved",
   "theorems": [
    "C34_unique",
    "C34_bounded",
    "C34_fails_only_when_full",
    "C34_no_abort",
    "C34_scratch_owned",
    "C34_reuse",
    "C34_lock_released"
   ],
   "note": "All interleavings of registration, deregistration and creation with any number of OS threads; includes reuse of returned ids."
  },
  {
   "property": "C35",
   "status": "proved",
   "theorems": [
    "C35_at_most_once",
    "C35_in_order",
    "C35_quiescent",
    "C35_no_abort",
    "C35_no_lost_wakeup",
    "C35_no_deadlock",
    "C35_drain",
    "C35_wait_for_completion_refuted"
   ],
   "note": "All interleavings of any number of threads, groups and workers, at the level of the linked lists; a section under a group mutex is one step. That a task finishes eventually is shown by C35_drain, C35_no_lost_wakeup and C35_no_deadlock rather than under a fairness assumption. task_wait_for_completion is refuted."
  },
  {
   "property": "C36",
   "status": "proved",
   "theorems": [
    "C36_delivered_in_ticket_order",
    "C36_store_never_overwrites",
    "C36_dequeue_returns_oldest",
    "C36_wraparound_refuted"
   ],
   "note": "All interleavings with unbounded producers, counters mod 2^32; capacity must divide 2^32, refuted (lost element) otherwise."
  },
  {
   "property": "C37",
   "status": "proved",
   "theorems": [
    "C37_queue_refines_priority_map",
    "C37_queue_never_stuck",
    "C37_update_priority_64bit_refuted"
   ],
   "note": "Any operation history on a queue of any capacity; update takes 32-bit priorities (64-bit refuted)."
  },
  {
   "property": "C38",
   "status": "partial",
   "theorems": [
    "C38_page",
    "C38_pages",
    "C38_iterator",
    "C38_foreign",
    "C38_threads",
    "C38_single",
    "C38_hidden_refuted",
    "C38_oversize",
    "C38_fits",
    "C38_order_refuted",
    "C38_stale_refuted",
    "C38_can_prev_refuted",
    "C38_last_generation_refuted"
   ],
   "note": "As stated it is false: generations 2^31 apart are sorted wrongly (C38_order_refuted) and generation 2^64-1 ends a page. Proved for all sequences of writes by any number of threads with other generations: completed pages read exactly, the iterator has the entries of the completed prefix, and they are in order when generations are less than 2^31 apart. Premise: the first incomplete page does not carry a matching checksum by accident. That completed pages reach the device is false (C49_log_refuted): the log does not mark its pages dirty."
  },
  {
   "property": "C39",
   "status": "proved",
   "theorems": [
    "C39_uint64",
    "C39_int64",
    "C39_narrow_unsigned",
    "C39_narrow_signed",
    "C39_denotation_unique"
   ],
   "note": "Every string; grammar and value given separately in Spec_Parse.v."
  },
  {
   "property": "C40",
   "status": "proved",
   "theorems": [
    "C40_hex_encode",
    "C40_hex_encode_empty"
   ],
   "note": "Every byte string and destination size."
  },
  {
   "property": "C41",
   "status": "proved",
   "theorems": [
    "C41_required",
    "C41_callbacks",
    "C41_defaults",
    "C41_accepted",
    "C41_geometry",
    "C41_filter",
    "C41_disk",
    "C41_wrap_refuted",
    "C41_undefined_refuted",
    "C41_limits_refuted",
    "C41_pivots",
    "C41_filter_refuted",
    "C41_ignored_refuted"
   ],
   "note": "For configurations of ordinary size (record ordinary: counts below 2^31, memtable of 64 KiB to 2^45 bytes) acceptance, defaults, node and filter geometry are exact. Outside it the claim is false: the _refuted theorems list accepted or crashing configurations."
  },
  {
   "property": "C42",
   "status": "partial",
   "theorems": [
    "C42_released",
    "C42_places_refuted",
    "C42_close",
    "C42_descriptor_refuted",
    "C42_group_refuted",
    "C42_register_refuted",
    "C42_queue_refuted"
   ],
   "note": "As stated it is false: four failure places never give back everything. All failure streams, configurations, devices and thread counts. Proved for every failure except four places, where the claim is false for every run (C42_places_refuted)."
  },
  {
   "property": "C43",
   "status": "partial",
   "theorems": [
    "C43_async_is_sync_partial",
    "C43_async_ends_partial",
    "C43_async_in_memtable",
    "C43_busy_root_leaks_partial",
    "C43_root_from_disk_refuted",
    "C43_busy_root_merges_twice_refuted",
    "C43_root_from_disk_example",
    "C43_empty_filter_refuted",
    "C43_wrapped_branch_refuted",
    "C43_btree_async_is_sync",
    "C43_btree_async_ends",
    "C43_filter_async_is_sync",
    "C43_filter_async_ends",
    "C43_btree_async_finds_the_writes",
    "C43_filter_async_exact"
   ],
   "note": "As stated it is false: a root that is locked or on disk, an empty filter, a branch number that wraps (the _refuted theorems). Proved for all reachable states of the trunk, all keys and all sequences of outcomes of the page requests in which the root is there at once and [fit] holds on the key's way; with the root refused any number of times, exactly what is leaked. The nested btree and filter lookups without such conditions. Missing: changes of the database while a lookup is suspended."
  },
  {
   "property": "C44",
   "status": "partial",
   "theorems": [
    "C44_disjoint",
    "C44_inside",
    "C44_no_abort",
    "C44_writes",
    "C44_kept",
    "C44_accounting",
    "C44_null",
    "C44_recycled",
    "C44_realloc",
    "C44_rounded",
    "C44_empty_refuted",
    "C44_unaligned_refuted",
    "C44_huge_refuted",
    "C44_shrink_refuted",
    "C44_alignment_refuted",
    "C44_lost_refuted"
   ],
   "note": "As stated, for all sizes, it is false: sizes 0, not multiples of 64, or near 2^64 (the _refuted theorems). Proved for all interleavings of requests and frees by any number of threads with the other sizes: fragments are disjoint, inside the segment, at cache lines, stay with their holder, zeroing a recycled one touches nobody, no assertion fails, NULL is returned only for lack of space. Realloc by one thread at a time, not shrinking."
  },
  {
   "property": "C45",
   "status": "proved",
   "theorems": [
    "C45_packed_range_counts"
   ],
   "note": "Trees made by the pack, any pair of bounds, totals below 2^31-1 (the value the code uses for unknown). btree_count_in_range_by_iterator is not modelled."
  },
  {
   "property": "C46",
   "status": "proved",
   "theorems": [
    "C46_slots_distinct",
    "C46_arithmetic_agrees",
    "C46_membership_agrees",
    "C46_circular_array_is_a_list",
    "C46_full_ring_looks_empty"
   ],
   "note": "Any capacity; a full array looks empty, so fewer than capacity entries must be live."
  },
  {
   "property": "C47",
   "status": "proved",
   "theorems": [
    "C47_found",
    "C47_addresses",
    "C47_capacity",
    "C47_twice_refuted"
   ],
   "note": "All sequences of registering and removing, for ids registered once. Registering an id twice is refuted."
  },
  {
   "property": "C48",
   "status": "partial",
   "theorems": [
    "C48_never_misused_partial",
    "C48_kept_partial",
    "C48_given_back_partial",
    "C48_destroyed_partial",
    "C48_leak_refuted",
    "C48_overtaken_refuted"
   ],
   "note": "Proved for all runs in which no request installs its result before an earlier one has taken its references (misuse, kept) and no index node splits while a request of its height is pending (given back, destroyed); both cases excluded are refuted."
  },
  {
   "property": "C49",
   "status": "partial",
   "theorems": [
    "C49_read",
    "C49_device",
    "C49_evicted",
    "C49_flush",
    "C49_neighbour_refuted",
    "C49_unmapped_refuted",
    "C49_sync_refuted",
    "C49_log_refuted"
   ],
   "note": "As stated it is false: neighbouring pages in a batch writeback, page_sync of a page given back, and a log that does not mark its pages (the _refuted theorems). Proved for all runs in which callers keep their rules, mark what they write, and no entry changes its page between the lookup of its address and the setting of the writeback flag. C49_flush: with no other call in progress, flush ends and everything is on the device. Pages are written and read word by word; I/O does not fail."
  },
  {
   "property": "C50",
   "status": "proved",
   "theorems": [
    "C50_linearizable",
    "C50_sees",
    "C50_scans"
   ],
   "note": "All schedules of any number of threads, one access to a page lock per step; whether pages are full and where they are cut is chosen by the schedule. Scans are those of the tree at rest. The locks are those of C22."
  },
  {
   "property": "C51",
   "status": "proved",
   "theorems": [
    "C51_no_deadlock",
    "C51_all_end"
   ],
   "note": "No deadlock, and every reachable state can be brought to rest. Under an unfair schedule an insertion that fails to claim its page can start over for ever; that is in the code."
  },
  {
   "property": "C52",
   "status": "proved",
   "theorems": [
    "C52_explained",
    "C52_ordered",
    "C52_sees",
    "C52_only",
    "C52_not_one_instant"
   ],
   "note": "Scans in either direction that run from one bound to the other; the generation of the end leaf is represented by what it stands for. Not a view of one instant: C52_not_one_instant."
  },
  {
   "property": "C53",
   "status": "proved",
   "theorems": [
    "C53_no_deadlock"
   ],
   "note": "No deadlock between calls and scans of different threads. A thread that inserts with an iterator of its own open can wait for itself; the header says so (splinterdb.h:312)."
  },
  {
   "property": "C54",
   "status": "proved",
   "theorems": [
    "C54_linearizable",
    "C54_but_stale",
    "C54_sees",
    "C54_only_given",
    "C54_no_assertion_fails"
   ],
   "note": "Every run without reads of given up space is linearizable; every run is, but for the answers of the lookups that read such space (C55 shows there are some). The new branch of a compaction has its messages for all keys, not only those of its node; lookups read all branches."
  },
  {
   "property": "C55",
   "status": "partial",
   "theorems": [
    "C55_reads_given_up_space_refuted",
    "C55_wrong_answer_refuted",
    "C55_two_compactions_refuted",
    "C55_nobody_at_the_node",
    "C55_same_root",
    "C55_newer_roots",
    "C55_only_older_roots"
   ],
   "note": "As stated it is false: three _refuted theorems with the runs. Proved: when a branch is given up no lookup at all is at the node that has it, and lookups that took the root the compaction replaced do not come to this node any more. Also proved: the node is on no path from a root there has been since the compaction switched, nor from one about to be switched in, and from then on only lookups come to it that were under way with a root older than the one replaced. These are what the refutations are about."
  },
  {
   "property": "C56",
   "status": "proved",
   "theorems": [
    "C56_no_deadlock",
    "C56_no_livelock",
    "C56_all_end"
   ],
   "note": "No deadlock and no livelock between the calls of C54. While an incorporation may flush and split as often as the schedule says, nothing is said of the end; and waiting is a step that cannot be taken, so nothing is said of spinning."
  },
  {
   "property": "C57",
   "status": "partial",
   "theorems": [
    "C57_one_claim",
    "C57_linearizable",
    "C57_filters_only",
    "C57_no_filters",
    "C57_linearizable_without_filters",
    "C57_two_claims_refuted",
    "C57_lost_memtable_refuted"
   ],
   "note": "As stated it is false: discarding filters because the leaf has split gives back the claim of the root a second time, and a memtable that was incorporated can be lost (the _refuted theorems). Proved for all runs in which no such step clears a claim that another thread has, and that only calls that build filters do it. Building filters is modelled as a compaction of no branches."
  }
 ]
}