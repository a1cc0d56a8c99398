{"id": "C01", "title": "Point lookups follow the write history", "statement": "After any sequence of successful splinterdb_insert/delete/update calls, splinterdb_lookup(k) reports exactly what replaying the calls on k, in order, on a plain dictionary would give: the last inserted value with every later update merged into it oldest-first, or 'not found' if the last definitive call was a delete (or there was none and no update made a value).", "quantifier": "every finite history of operations, every key, every lawful pair of user merge callbacks, and every point at which background work (memtable rotation, compaction, incorporation, flush, split) may run in between", "why_tests_cant": "the state depends on the whole history and on when background work happens; tests sample a few histories and schedules", "anchors": ["src/splinterdb.c: splinterdb_insert, splinterdb_delete, splinterdb_update, splinterdb_lookup", "src/trunk.c: trunk_insert, trunk_lookup, trunk_memtable_insert", "src/data_internal.h: data_merge_tuples, data_merge_tuples_final"]}
{"id": "C02", "title": "Operations on one key never disturb another", "statement": "A successful insert, delete or update of key k leaves the lookup result of every key k' that compares different from k unchanged, whatever node splits, defragmentations, flushes or compactions the operation triggers.", "quantifier": "all databases reachable by any history, all pairs of distinct keys, all messages", "why_tests_cant": "interference appears only for particular page layouts and split points; the space of layouts is unbounded", "anchors": ["src/btree.c: btree_insert, btree_split_child_leaf, btree_split_child_index", "src/trunk.c: trunk_lookup"]}
{"id": "C03", "title": "Merge timing is unobservable", "statement": "The value a reader sees for a key does not depend on how its pending messages happen to be grouped into intermediate merges: merging at insert time, at compaction in any node, or only at lookup all give the same final value, provided the user's merge callbacks are associative and the final callback agrees with applying updates one at a time.", "quantifier": "every non-empty list of messages for a key and every way to parenthesise its merges, with the final step applied at the end", "why_tests_cant": "the grouping is chosen by background scheduling; there are exponentially many groupings", "anchors": ["src/data_internal.h: data_merge_tuples, data_merge_tuples_final", "src/merge.c: merge_resolve_equal_keys, finalize_updates_and_discard_deletes"]}
{"id": "C04", "title": "Forward range scan is exact", "statement": "Starting an iterator at key s (or at the beginning) and calling next until it is no longer valid visits exactly the live keys >= s, each once, in strictly increasing comparator order, each with the value a lookup of that key would return.", "quantifier": "every reachable database contents, every start key, every distribution of the data over memtables, branches and trunk nodes", "why_tests_cant": "depends on how the tuples are spread over arbitrarily many sorted sources and on positions of page and node boundaries", "anchors": ["src/splinterdb.c: splinterdb_iterator_init, splinterdb_iterator_next", "src/trunk.c: trunk_range_iterator_init, trunk_range_iterator_next", "src/merge.c: merge_iterator_create, merge_next", "src/btree.c: btree_iterator_init, btree_iterator_next"]}
{"id": "C05", "title": "Reverse range scan is exact", "statement": "From any valid iterator position, calling prev until it is no longer valid visits exactly the live keys smaller than the current one, each once, in strictly decreasing order.", "quantifier": "every reachable database, every start key (including keys that fall between two stored keys), every sequence of next/prev calls before it", "why_tests_cant": "correctness depends on where the start key falls relative to page boundaries, which is data dependent and unbounded", "anchors": ["src/splinterdb.c: splinterdb_iterator_prev", "src/trunk.c: trunk_range_iterator_prev", "src/merge.c: merge_prev, merge_iterator_set_direction", "src/btree.c: btree_iterator_init, btree_iterator_prev, find_btree_node_and_get_idx_bounds"]}
{"id": "C06", "title": "Scans never return deleted or half-merged tuples", "statement": "A key whose resolved message is a delete is never returned by an iterator, and every tuple returned is a fully resolved value, never a bare update.", "quantifier": "all multisets of sorted sources with any mixture of inserts, updates and deletes for the same key", "why_tests_cant": "needs all ways duplicates of a key may be spread over sources and ages", "anchors": ["src/merge.c: finalize_updates_and_discard_deletes, advance_one_loop"]}
{"id": "C07", "title": "K-way merge is stable by age", "statement": "Merging any number of sorted sources yields the sorted union of their keys; for a key present in several sources the result is the merge of its messages in age order, the newer source always taking precedence.", "quantifier": "every number of sources, every assignment of sorted tuple lists to sources", "why_tests_cant": "tests use a handful of sources and lengths", "anchors": ["src/merge.c: bsearch_comp, bsearch_insert, advance_and_resort_min_ritor, merge_resolve_equal_keys"]}
{"id": "C08", "title": "The tree in memory is a sorted map", "statement": "After any sequence of insertions, a memtable tree looked up at key k returns the fold of the messages inserted for k in order, or 'absent' if there were none; every stored key is reachable by descending from the root.", "quantifier": "all insertion sequences, all key and message sizes that are accepted, all resulting page splits", "why_tests_cant": "split positions depend on byte sizes of all earlier entries; state space unbounded", "anchors": ["src/btree.c: btree_insert, btree_lookup_node, btree_find_pivot, btree_find_tuple, btree_split_child_leaf, btree_grow_root"]}
{"id": "C09", "title": "Page edits stay inside the page", "statement": "Adding, replacing, removing or moving entries of a tree page never writes outside the page, never overlaps another live entry or the offset table, and leaves all other entries of that page readable and unchanged.", "quantifier": "every page content reachable by edits, all page sizes, entry sizes and positions", "why_tests_cant": "needs every combination of free space, entry sizes and slot numbers", "anchors": ["src/btree.c: btree_set_leaf_entry, btree_set_index_entry, btree_insert_leaf_entry, btree_defragment_leaf, btree_truncate_leaf", "src/btree_private.h: btree_hdr"]}
{"id": "C10", "title": "Page splits lose and duplicate nothing", "statement": "Splitting a full page produces two pages whose entries, concatenated, are the original entries in order; both halves are non-empty, the separator routes every key to the half that holds it, and the pending insertion fits in the half chosen for it.", "quantifier": "all page contents, all entry sizes up to the inline limits, all pending insertions", "why_tests_cant": "the split plan is a greedy computation over byte sizes", "anchors": ["src/btree.c: btree_build_leaf_splitting_plan, plan_move_more_entries_to_left, btree_split_leaf_build_right_node, btree_split_leaf_cleanup_left_node, btree_choose_index_split"]}
{"id": "C11", "title": "Binary search in a page finds the right slot", "statement": "Searching a sorted page for a key returns the index of the last entry whose key is <= the target (or -1), and reports an exact hit iff the target is present.", "quantifier": "all sorted entry arrays of any length, all targets including infinities", "why_tests_cant": "all lengths and all relative positions", "anchors": ["src/btree.c: btree_find_pivot, btree_find_tuple"]}
{"id": "C12", "title": "Trunk routing picks the unique child", "statement": "Routing a key in an index node picks the unique child whose key range contains it, for each of the four search modes, for every number of children.", "quantifier": "all strictly increasing pivot arrays, all targets, all four comparison modes", "why_tests_cant": "the search is a branch-free variant whose correctness depends on the number of pivots not being a power of two, etc.", "anchors": ["src/trunk.c: trunk_find_pivot, lowerbound, update_lowerbound"]}
{"id": "C13", "title": "Bulk load is faithful", "statement": "Packing a sorted stream of tuples into a read-only tree yields a tree whose lookups and scans return exactly those tuples, and whose tuple and byte totals equal those of the stream.", "quantifier": "all streams of any length and tuple sizes", "why_tests_cant": "number of levels and page fill depends on the whole stream", "anchors": ["src/btree.c: btree_pack, btree_pack_loop, btree_pack_post_loop, btree_pack_link_extent"]}
{"id": "C14", "title": "Routing filter has no false negatives", "statement": "If a key was added to a filter with value v, then querying the filter for that key reports v, after any number of later additions.", "quantifier": "all sequences of batches of fingerprints, all hash functions, all filter geometries accepted by the configuration", "why_tests_cant": "probabilistic structure: tests see only a few hash values; a false negative silently loses data", "anchors": ["src/routing_filter.c: routing_filter_add, routing_filter_lookup, routing_get_bucket_bounds, RadixSort", "src/PackedArray.c: PackedArray_pack, PackedArray_unpack, PackedArray_get"]}
{"id": "C15", "title": "Packed integer arrays round-trip", "statement": "Packing n integers of b bits and reading any of them back, one at a time or all together, gives the same integers, for every bit width.", "quantifier": "all n, all b in 1..32, all values below 2^b", "why_tests_cant": "word straddling depends on n*b mod 32", "anchors": ["src/PackedArray.c: PackedArray_pack, PackedArray_unpack, PackedArray_get"]}
{"id": "C16", "title": "Flush preserves the database", "statement": "Moving data from a node to a child (flush) does not change the lookup result of any key.", "quantifier": "all trunk trees satisfying the structural invariant, all choices of child, all keys", "why_tests_cant": "depends on the order of bundles and branches in two nodes with circular arrays", "anchors": ["src/trunk.c: trunk_flush, trunk_flush_into_bundle, trunk_pivot_clear, trunk_room_to_flush"]}
{"id": "C17", "title": "Compaction preserves the database", "statement": "Replacing the branches of a bundle by their merge (in an index node or in a leaf), including discarding it when it becomes stale, does not change the lookup result of any key.", "quantifier": "all trees, all bundles, all interleavings of the compaction with flushes and splits of the same node", "why_tests_cant": "compactions run concurrently with flushes; the interesting interleavings are rare", "anchors": ["src/trunk.c: trunk_compact_bundle, trunk_replace_bundle_branches, trunk_bundle_build_filters, trunk_garbage_collect_bundle"]}
{"id": "C18", "title": "Node splits preserve the database", "statement": "Splitting a trunk index node, leaf or root does not change the lookup result of any key and leaves every key routed to exactly one leaf.", "quantifier": "all trees, all split points", "why_tests_cant": "depends on sizes of everything in the node", "anchors": ["src/trunk.c: trunk_split_index, trunk_split_leaf, trunk_split_root, trunk_add_pivot"]}
{"id": "C19", "title": "Incorporation is atomic for readers", "statement": "While a full memtable is being turned into a branch and moved into the tree, a concurrent lookup sees each of its messages exactly once: never zero times, never twice.", "quantifier": "all interleavings of any number of lookups with the incorporating thread", "why_tests_cant": "needs all schedules", "anchors": ["src/trunk.c: trunk_memtable_incorporate_and_flush, trunk_lookup, trunk_memtable_lookup", "src/memtable.c: memtable_maybe_rotate_and_begin_insert", "src/memtable.h: memtable_try_transition"]}
{"id": "C20", "title": "Memtable generations rotate in order", "statement": "Memtables are filled, compacted and incorporated in generation order; a generation is incorporated only after all earlier ones; a memtable slot is reused only after its previous generation was incorporated, so no insert is ever lost to a recycled memtable.", "quantifier": "all schedules of inserters, compactors and incorporators", "why_tests_cant": "race conditions between rotation and out-of-order compaction completions", "anchors": ["src/memtable.c: memtable_maybe_rotate_and_begin_insert, memtable_dec_ref_maybe_recycle", "src/trunk.c: trunk_memtable_flush_internal, trunk_try_start_incorporate, trunk_try_continue_incorporate"]}
{"id": "C21", "title": "Distributed reader/writer lock excludes", "statement": "No thread holds the shared lock while another holds the exclusive lock, and at most one thread holds a claim.", "quantifier": "all interleavings of any number of threads, any number of acquisitions", "why_tests_cant": "needs all schedules", "anchors": ["src/platform_linux/platform.c: platform_batch_rwlock_get, platform_batch_rwlock_try_claim, platform_batch_rwlock_lock"]}
{"id": "C22", "title": "Page locks exclude and pin", "statement": "A cached page that some thread references is never evicted or reused for another page; a write-locked page has no other readers past the lock, and at most one thread claims a page.", "quantifier": "all interleavings of get/unget/claim/lock/evict by any number of threads", "why_tests_cant": "needs all schedules", "anchors": ["src/clockcache.c: clockcache_get, clockcache_try_get_read, clockcache_try_get_claim, clockcache_get_write, clockcache_try_evict"]}
{"id": "C23", "title": "No extent is handed out twice", "statement": "The allocator never returns an extent that is still in use, reference counts equal the number of references taken minus dropped, the in-use count equals the number of allocated extents, and allocation fails only if no extent is free.", "quantifier": "all interleaved sequences of alloc/inc/dec", "why_tests_cant": "exhaustion and wraparound of the clock hand need unbounded histories", "anchors": ["src/rc_allocator.c: rc_allocator_alloc, rc_allocator_inc_ref, rc_allocator_dec_ref"]}
{"id": "C24", "title": "Page allocation from extents is unique and fully reclaimed", "statement": "The page allocator built on extents returns pairwise distinct page addresses, records every extent it took, and releasing the last reference frees each of them exactly once.", "quantifier": "all sequences of allocations over all batches, any number of metadata pages", "why_tests_cant": "metadata spill-over to new pages and extents needs long runs", "anchors": ["src/mini_allocator.c: mini_alloc, mini_append_entry, mini_unkeyed_dec_ref, mini_release, mini_deinit"]}
{"id": "C25", "title": "Range references keep the data they cover", "statement": "Dropping a key-range reference to a branch never frees an extent that another outstanding range reference still covers, and when all ranges have been dropped everything is freed.", "quantifier": "all extent key layouts, all families of ranges", "why_tests_cant": "needs all overlaps of ranges and extents", "anchors": ["src/mini_allocator.c: mini_keyed_for_each, mini_keyed_inc_ref, mini_keyed_dec_ref, interval_intersects_range"]}
{"id": "C26", "title": "Close then open restores the database", "statement": "After splinterdb_close, splinterdb_open on the same device gives a database with the same lookup results.", "quantifier": "all database states, including ones with unflushed memtables", "why_tests_cant": "needs all states", "anchors": ["src/splinterdb.c: splinterdb_close, splinterdb_open", "src/trunk.c: trunk_unmount, trunk_mount, trunk_set_super_block, trunk_get_super_block_if_valid, trunk_prepare_for_shutdown", "src/rc_allocator.c: rc_allocator_mount, rc_allocator_unmount"]}
{"id": "C27", "title": "Open refuses an unclean device", "statement": "Opening a device that was not cleanly closed, whose superblock is damaged or belongs to no database fails with an error instead of serving stale data.", "quantifier": "all crash points between open and close, all corruptions detected by the checksum", "why_tests_cant": "needs every crash point", "anchors": ["src/trunk.c: trunk_mount, trunk_set_super_block, trunk_get_super_block_if_valid"]}
{"id": "C28", "title": "Oversized or malformed writes are rejected without effect", "statement": "An insert whose key or message exceeds the inline limits of the page size is refused with an error and leaves the database unchanged; every write within the limits and not requiring a merge is accepted.", "quantifier": "all keys, messages, page sizes and database states", "why_tests_cant": "the boundary interacts with page fill and splits", "anchors": ["src/trunk.c: trunk_insert", "src/btree.c: btree_insert, MAX_INLINE_KEY_SIZE, MAX_INLINE_MESSAGE_SIZE"]}
{"id": "C29", "title": "Accepted updates never stop the process", "statement": "A sequence of splinterdb_update calls each within the size limits succeeds or returns an error; it never aborts the process.", "quantifier": "all sequences of updates, all user merge callbacks", "why_tests_cant": "needs particular merged sizes", "anchors": ["src/btree.c: btree_insert, btree_try_perform_leaf_incorporate_spec, btree_can_perform_leaf_incorporate_spec"]}
{"id": "C30", "title": "Lookup results obey their buffer contract", "statement": "splinterdb_lookup_result_value succeeds iff the key was found and then yields exactly the stored bytes; a caller-provided buffer is never freed and never overrun, and a result object can be reused for any number of lookups.", "quantifier": "all buffer sizes, all value lengths, all sequences of lookups on one result object", "why_tests_cant": "growth policy and reuse depend on all earlier lookups", "anchors": ["src/splinterdb.c: splinterdb_lookup_result_init, splinterdb_lookup_result_value, splinterdb_lookup_found", "src/util.c: writable_buffer_ensure_space, writable_buffer_resize", "src/util.h: writable_buffer_copy_slice"]}
{"id": "C31", "title": "Default key order is a total order", "statement": "The default comparator is a total order on byte strings (shorter prefix first), and the extended order with the two infinities is a total order consistent with it.", "quantifier": "all byte strings", "why_tests_cant": "all pairs and triples", "anchors": ["src/util.h: slice_lex_cmp", "src/default_data_config.c: key_compare", "src/data_internal.h: data_key_compare"]}
{"id": "C32", "title": "Stored tuples decode to what was stored", "statement": "Encoding a key (finite or infinite) or a key/message pair in page format and decoding it gives the same key, message class and bytes.", "quantifier": "all keys and messages within limits", "why_tests_cant": "all lengths and all byte contents", "anchors": ["src/data_internal.h: copy_key_to_ondisk_key, ondisk_key_to_key, copy_tuple_to_ondisk_tuple, ondisk_tuple_key, ondisk_tuple_message"]}
{"id": "C33", "title": "Iterator status functions agree", "statement": "valid() holds iff both can_next() and can_prev() hold and status() is 0; after next from a valid position, prev returns to the same element, and vice versa.", "quantifier": "all iterator positions in all databases", "why_tests_cant": "needs all boundary positions", "anchors": ["src/splinterdb.c: splinterdb_iterator_valid, splinterdb_iterator_can_next, splinterdb_iterator_can_prev, splinterdb_iterator_status", "src/iterator.h: iterator_can_curr"]}
{"id": "C34", "title": "Thread ids are unique", "statement": "Two registered threads never share a thread id, ids are below the maximum, registration fails only when all ids are taken, and a deregistered id can be reused.", "quantifier": "all sequences of registrations and deregistrations", "why_tests_cant": "exhaustion and reuse need long histories", "anchors": ["src/task.c: task_allocate_threadid, task_deallocate_threadid, task_register_thread, task_deregister_thread"]}
{"id": "C35", "title": "Background tasks run exactly once in order", "statement": "Every enqueued background task is executed at most once and none is lost: tasks leave each queue in the order they were put in (a task enqueued as urgent goes to the front), a sleeping worker is woken when work waits, and 'perform until quiescent' returns only at a moment when every task ever enqueued has finished and none is running.", "quantifier": "all interleavings of any number of enqueuers, performers, workers and threads testing for quiescence, with tasks that enqueue tasks", "why_tests_cant": "needs all schedules", "anchors": ["src/task.c:467-567 task_group_get_next_task, task_worker_thread", "src/task.c:647-701 task_enqueue", "src/task.c:708-836 task_group_perform_one, task_system_is_quiescent, task_perform_until_quiescent"]}
{"id": "C36", "title": "Async completion queue is FIFO and lossless", "statement": "The multi-producer single-consumer queue delivers each enqueued element exactly once, in slot order, and never overwrites an element that was not yet consumed while at most its capacity are outstanding.", "quantifier": "all interleavings of producers and the consumer, including counter wraparound", "why_tests_cant": "wraparound needs 2^32 operations; races need all schedules", "anchors": ["src/pcq.h: pcq_enqueue, pcq_dequeue"]}
{"id": "C37", "title": "Space-reclamation queue returns the most urgent item", "statement": "Extracting from the queue returns an entry of maximal priority; every entry inserted and not yet extracted or deleted can be found by the handle it was given.", "quantifier": "all sequences of insert/update/delete/extract", "why_tests_cant": "heap shapes are unbounded", "anchors": ["src/srq.h: srq_insert, srq_extract_max, srq_delete, srq_update"]}
{"id": "C38", "title": "Log pages replay what was written", "statement": "Reading a completed log page yields exactly the entries written to it, in order; the log iterator yields all entries of the valid prefix of the log in generation order.", "quantifier": "all sequences of writes of any sizes by any number of threads", "why_tests_cant": "page boundaries depend on all sizes", "anchors": ["src/shard_log.c: shard_log_write, shard_log_iterator_init, terminal_log_entry, shard_log_compare"]}
{"id": "C39", "title": "Number parsing is exact", "statement": "The string-to-integer parsers accept exactly the documented grammar, return the denoted value, and reject every value outside the target range.", "quantifier": "all strings, all target widths", "why_tests_cant": "overflow boundaries in three bases", "anchors": ["src/util.c: try_string_to_uint64_limit, try_string_to_uint64, try_string_to_int64, try_string_to_int8"]}
{"id": "C40", "title": "Hex dump never overruns its buffer", "statement": "Hex-encoding any data into a buffer of any length writes only inside it, always terminates it, and yields the right digits for every byte that fits.", "quantifier": "all data lengths, all buffer lengths", "why_tests_cant": "all relative lengths incl. odd ones", "anchors": ["src/util.c: debug_hex_encode"]}
{"id": "C41", "title": "Configuration defaults and validation", "statement": "A configuration with no filename, zero cache size or zero disk size is rejected; otherwise every field left zero gets its documented default and every non-zero field is kept; the derived trunk geometry always fits the page.", "quantifier": "all configurations; fitting the page for all configurations whose fields are of ordinary size (below 2^31)", "why_tests_cant": "product of all fields", "anchors": ["src/splinterdb.c: splinterdb_init_config, splinterdb_config_set_defaults, splinterdb_validate_app_data_config", "src/trunk.c: trunk_config_init"]}
{"id": "C42", "title": "Failed create or open releases everything", "statement": "If creating or opening a database fails at any step, every resource acquired before is released exactly once, in reverse order, and the caller gets an error.", "quantifier": "all failure points", "why_tests_cant": "needs fault injection at every step", "anchors": ["src/splinterdb.c: splinterdb_create_or_open, splinterdb_close"]}
{"id": "C43", "title": "Async lookup equals sync lookup", "statement": "An asynchronous lookup, however often it is suspended and resumed, ends with the same result as a synchronous lookup on the same state.", "quantifier": "all databases, all keys, all suspension patterns", "why_tests_cant": "needs all suspension points and all ring positions", "anchors": ["src/trunk.c: trunk_lookup_async", "src/btree.c: btree_lookup_async_with_ref", "src/routing_filter.c: routing_filter_lookup_async"]}
{"id": "C44", "title": "Shared-memory fragments never overlap", "statement": "Fragments handed out by the shared-memory heap never overlap, lie inside the segment, and freeing then reallocating a fragment never hands out memory that is still in use.", "quantifier": "all sequences of allocations and frees of all sizes", "why_tests_cant": "free-list states are unbounded", "anchors": ["src/platform_linux/shmem.c: platform_shm_alloc, platform_shm_free, platform_shm_realloc, platform_shm_find_large, platform_shm_track_large_alloc, platform_shm_track_free"]}
{"id": "C45", "title": "Range counts are exact", "statement": "The number of tuples (and key/message bytes) a packed tree reports for a key range equals the number actually in that range.", "quantifier": "all trees, all ranges", "why_tests_cant": "all positions of the bounds", "anchors": ["src/btree.c: btree_count_in_range, btree_get_rank, btree_iterator_init"]}
{"id": "C46", "title": "Circular array indices never collide", "statement": "Index arithmetic on the circular arrays inside a node maps distinct live positions to distinct slots and membership tests agree with the unwrapped positions, as long as fewer entries than the capacity are live.", "quantifier": "all capacities, start positions and lengths", "why_tests_cant": "wraparound positions are unbounded", "anchors": ["src/trunk.c: trunk_add_branch_number, trunk_subtract_branch_number, trunk_branch_in_range, trunk_bundle_in_range"]}
{"id": "C47", "title": "Databases on one device have separate super blocks", "statement": "After any sequence of registering and removing databases on a device, looking up a database finds the super block address it was given, different databases have different addresses inside the first extent, removing one leaves the others, and registering succeeds exactly while a slot is free.", "quantifier": "all sequences of registrations and removals, all geometries the allocator accepts", "why_tests_cant": "needs all interleavings of registrations and removals", "anchors": ["src/rc_allocator.c: rc_allocator_get_super_addr, rc_allocator_alloc_super_addr, rc_allocator_remove_super_addr"]}
{"id": "C48", "title": "Branch space is kept while used and given back afterwards", "statement": "The space of a branch is never given back while some node of the tree refers to the branch for keys stored there or a compaction reads it, no reference to space that was given back is taken or dropped, and space of a branch that nothing refers to, reads or is about to install is given back; after the database is destroyed all of it is.", "quantifier": "all sequences of insertions, flushes, splits and of the phases of any number of compactions, all branches and all key ranges", "why_tests_cant": "needs all interleavings of flushes, splits and overlapping compactions; a leak or an early release shows only much later", "anchors": ["src/trunk.c: trunk_inc_intersection, trunk_zap_branch_range, trunk_replace_bundle_branches, trunk_garbage_collect_bundle, trunk_bundle_inc_pivot_rc, trunk_compact_bundle, trunk_flush, trunk_split_leaf, trunk_destroy"]}
{"id": "C49", "title": "Cached pages keep what was written to them", "statement": "Whoever has a page from the cache reads in each word what was last written to it under the page's write lock, or what the device had at the start, however often the page was written back, evicted and loaded in between; a page that is not cached, or cached and clean and not locked, is on the device as last written; and after a flush of an idle cache every page is.", "quantifier": "all schedules of any number of threads, one shared access or one transferred word per step; all pages, page sizes and contents", "why_tests_cant": "needs writebacks, evictions and loads interleaved with each other at every point; a lost update shows only after the page was evicted", "anchors": ["src/clockcache.c: clockcache_batch_start_writeback, clockcache_write_callback, clockcache_page_sync, clockcache_flush, clockcache_get_internal, clockcache_prefetch, clockcache_mark_dirty", "src/shard_log.c: shard_log_write"]}
{"id": "C50", "title": "Insertions into and lookups in a memtable's tree take effect at one instant", "statement": "However many threads insert into and look up in the tree of one memtable at once, their calls and returns are those of calls that each act on a plain table at one instant between call and return: an insertion appends its message to those of its key and reports whether the key was new, a lookup has all messages of its key. So a lookup that starts after an insertion returned has its message. When no call runs, scans from any key in either direction have every inserted key once, in order, with exactly its messages.", "quantifier": "all schedules of any number of threads, one access to a page lock per step; all keys; pages full and split at any point and at any key between their entries", "why_tests_cant": "needs a split of a leaf, an index or the root interleaved at every lock with other insertions and lookups on the same path", "anchors": ["src/btree.c: btree_insert, btree_grow_root, btree_split_child_leaf, btree_defragment_or_split_child_leaf, btree_split_child_index, btree_defragment_or_split_child_index, btree_lookup_with_ref, btree_iterator_init"]}
{"id": "C51", "title": "Threads in a memtable's tree do not lock each other out", "statement": "While a call on the tree of a memtable is in progress, some call in progress can take its next step, and from every reachable state all calls in progress can be brought to their return.", "quantifier": "all schedules of any number of threads inserting and looking up, one access to a page lock per step", "why_tests_cant": "a deadlock needs two threads to take page locks in opposite order at one moment; the absence of such an order is a property of all paths", "anchors": ["src/btree.c: btree_insert, btree_split_child_leaf (get of the next leaf), btree_lookup_with_ref"]}
{"id": "C52", "title": "A scan of a memtable's tree loses nothing while the tree takes insertions", "statement": "An iteration over the tree of a memtable, forward from a lower to an upper bound or back from the upper to the lower, while other threads insert: the keys it shows ascend, or going back descend, lie within the bounds, and each is shown with messages that were inserted; every key whose insertion returned before the iteration began is shown with that message. The iteration shows the table in pieces, each as it was at one instant, that follow one another without gap or overlap.", "quantifier": "all schedules of any number of threads inserting and looking up and of any number of scans in both directions, all bounds, one access to a page lock per step", "why_tests_cant": "an entry is lost only if a split falls between two accesses of the iterator to page locks, at the leaf it is moving to or at the leaf of its upper bound", "anchors": ["src/btree.c: btree_iterator_init, find_btree_node_and_get_idx_bounds, btree_iterator_find_end, btree_iterator_next_leaf, btree_iterator_prev_leaf, btree_split_child_leaf"]}
{"id": "C53", "title": "Scans and insertions do not lock each other out", "statement": "While calls or scans, forward or back, on the tree of a memtable are in progress in different threads, one of them can take its next step. If no new call, flush or split begins, no schedule goes on for ever, and all calls can be brought to their end.", "quantifier": "all schedules of any number of threads and scans, one access to a page lock per step", "why_tests_cant": "the iterator keeps a leaf claimed while it goes down from the root for its end, and insertions keep a parent locked while they wait for leaves; that this never closes a circle is a property of all paths", "anchors": ["src/btree.c: find_btree_node_and_get_idx_bounds (2822-2837), btree_split_child_leaf (1366-1394)"]}
{"id": "C54", "title": "Lookups beside incorporation, flush, split and compaction act at one instant", "statement": "However many threads look up, incorporate memtables (with any flushes of nodes and splits of leaves, index nodes and the root) and compact bundles in the trunk at once, their calls and returns are those of calls that act on a plain table at one instant between call and return: an incorporation puts the memtable's messages before those of each key, a lookup has the messages of its key, newest first, a compaction changes nothing. So a lookup that starts after an incorporation returned has its messages and only messages that were given. No assertion on the way fails.", "quantifier": "all schedules of any number of threads, one access to the lock of the root or of a node per step; all keys and memtables; flushes and splits at any node and key; compactions of any run of branches at any height; except for the answers of lookups that read given up space (C55)", "why_tests_cant": "needs the switch of the root, the copying of a path and the replacement of branches interleaved at every lock with lookups that are still in older trees", "anchors": ["src/trunk.c: trunk_lookup, trunk_root_get, trunk_claim_and_copy_root, trunk_update_claimed_root, trunk_copy_path_by_key_and_height, trunk_memtable_incorporate_and_flush, trunk_flush, trunk_compact_bundle, trunk_split_root"]}
{"id": "C55", "title": "No lookup reads space that was given up", "statement": "While a lookup is on its way through the trunk, the branches it comes to are there: a compaction gives up the space of the branches it replaced only when no lookup can come to them any more.", "quantifier": "all schedules of any number of lookups, incorporations and compactions, one access to the lock of the root or of a node per step", "why_tests_cant": "needs a lookup to rest at the root during a whole incorporation and a whole compaction, and the freed extents to be reused before it goes on", "anchors": ["src/trunk.c: trunk_garbage_collect_node_get (2841-2884), trunk_garbage_collect_bundle (2889-2929), trunk_memtable_incorporate_and_flush (3674)"]}
{"id": "C56", "title": "Lookups, incorporations and compactions do not lock each other out", "statement": "While lookups, incorporations or compactions in the trunk are in progress, one of them can take its next step. If no new call, flush or split begins, no schedule goes on for ever, and all calls can be brought to their end.", "quantifier": "all schedules of any number of threads, one access to the lock of the root or of a node per step", "why_tests_cant": "a compaction keeps a node of the new tree locked while it waits for the readers of the old one, which may wait for nodes that other compactions keep locked; that this never closes a circle is a property of all states", "anchors": ["src/trunk.c: trunk_copy_path_by_key_and_height (1306-1339), trunk_garbage_collect_node_get (2841-2884), trunk_compact_bundle (5411-5434), trunk_update_claimed_root (1263-1271)"]}
{"id": "C57", "title": "One thread at a time changes the root of the trunk", "statement": "Whatever incorporations, compactions and buildings of filters are in progress, at most one thread is between taking the right to change the root and switching a new root in; so no incorporated memtable is lost when another thread switches in a root it copied before.", "quantifier": "all schedules of any number of threads, one access to the lock of the root or of a node per step, with leaves that split while their filters are built", "why_tests_cant": "needs a leaf to split while its filters are built, and the discarding of the filters to fall between the copy and the switch of the root in another thread", "anchors": ["src/trunk.c: trunk_bundle_build_filters (4306-4325), trunk_update_claimed_root (1263-1271), trunk_root_full_unclaim; src/platform_linux/platform.c: platform_batch_rwlock_unclaim (385-390)"]}
