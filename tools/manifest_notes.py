# property -> (status, note); read by the script that writes MANIFEST.json
NOTES = {
 'C03': ('proved', 'All groupings of any message list; callbacks subject to lawful_merge (Spec.v).'),
 'C31': ('proved', 'Total order for strings shorter than 2^31 bytes; refuted beyond (int truncation in slice_lex_cmp).'),
 'C32': ('proved', 'Round trips at byte level for keys below 65534 bytes and tuples below 65536 bytes.'),
 'C11': ('proved', 'Any strictly increasing key array, any target, any total order.'),
 'C12': ('proved', 'All four modes with the first pivot not past the target, as callers guarantee; the greater modes are refuted without that premise (no caller uses them).'),
 'C36': ('proved', 'All interleavings with unbounded producers, counters mod 2^32; capacity must divide 2^32, refuted (lost element) otherwise.'),
 'C37': ('proved', 'Any operation history on a queue of any capacity; update takes 32-bit priorities (64-bit refuted).'),
 'C46': ('proved', 'Any capacity; a full array looks empty, so fewer than capacity entries must be live.'),
 'C30': ('proved', 'Any history of lookups, resizes and copies over a result buffer, caller-supplied or owned; reuse after deinit is refuted (store through NULL).'),
 'C39': ('proved', 'Every string; grammar and value given separately in Spec_Parse.v.'),
 'C40': ('proved', 'Every byte string and destination size.'),
 'C21': ('proved', 'All interleavings of any number of threads, one shared access per step, sequentially consistent memory; includes lock progress.'),
 'C23': ('proved', 'All interleavings over any number of extents; spurious NO_SPACE under concurrency is a proved refutation.'),
 'C34': ('proved', 'All interleavings of registration, deregistration and creation with any number of OS threads; includes reuse of returned ids.'),
 'C09': ('proved', 'Byte-level pages of any size below 2^16, any sequence of edits; leaf and index encodings.'),
 'C08': ('proved', 'Any sequence of writes, any page size; keys up to about a tenth of the page (378 bytes for 4096), merged messages within the message limit; insertions are atomic (no lock steps).'),
 'C10': ('proved', 'Any leaf with entries within the inline limits on pages of at least 1240 bytes; index pages with keys up to about a tenth of the page.'),
 'C28': ('proved', 'Refusal for every tree; acceptance of inserts and deletes for every tree built by insertions.'),
 'C29': ('partial', 'False as stated: proved counterexamples (growing merges; long keys; a twelfth incorporation before filters are built; a compaction that empties a bundle in front of another one). What holds: no abort while merged messages and keys stay within the stated bounds.'),
 'C07': ('proved', 'Any number of sources below 1024 (more are refused), any sorted tuples, any mixture of messages, all three merge modes; qsort modelled as insertion sort.'),
 'C06': ('proved', 'Whole forward scans of merges of any sources; callbacks subject to lawful_merge.'),
 'C04': ('partial', 'Tree level: for every tree made by writes, every pair of bounds and every start key, a forward scan yields exactly the tuples of the range from the start. Merge level: see C06, C07. Database level: after every guarded run (C01), an iterator started anywhere lists exactly the dictionary from there on, with the values lookups return, whatever background work comes between the calls; the same for trunk_range. Missing: runs outside the guard, more than 256 branches on the way to a leaf, and writes between the calls.'),
 'C05': ('partial', 'Tree level: backward scans from below any start key are exact, and the iterator is an exact cursor for the starts listed. Merge level: a backward scan from the end mirrors the forward one for any sources. Refuted in the code: a start that falls after the last key of a leaf loses all smaller keys when stepping back; a merge started below a bound skips the greatest keys; at database level, stepping back into the previous leaf skips keys, and behind the last key the way back is closed if the last leaf is empty.'),
 'C33': ('partial', 'False as stated: two proved counterexamples for a key held by two sources, and one at database level where next is refused after prev. What holds: with disjoint sources the merge iterator is an exact cursor under any steps.'),
 'C15': ('proved', 'All widths 1..32, all starting item numbers, all non-empty lists of b-bit integers; bits outside the fields unchanged. Packing nothing asserts, and items wider than b bits damage their neighbour (refuted theorems).'),
 'C13': ('proved', 'Any stream of distinct keys in order with tuples that fit a page, any page size, any division of pages into extents, up to F^7 tuples where F is the least number of keys in an index page (the code has 8 levels and asserts beyond). A tuple too big for a page aborts the pack (C13_pack_oversize_tuple_refuted).'),
 'C45': ('proved', 'Trees made by the pack, any pair of bounds, totals below 2^31-1 (the value the code uses for unknown). btree_count_in_range_by_iterator is not modelled.'),
 'C14': ('proved', 'All sequences of batches of 32-bit hashes, any geometry with a power-of-two index size, any memory contents: lookups report exactly the values of the batches holding a hash with the same top bits; adds never abort while each index fits its page. Values must be below 31 for the caller loop and their bit size must not go down. Refuted: crowded index (also with the default geometry), index sizes that are not powers of two, an empty first batch, values from 31. The async lookup and page allocation are not modelled.'),
 'C01': ('partial', 'Proved for every run of writes and background steps (rotation, incorporation, flushes, splits, compactions cut into their separately published parts) in which each step meets the stated guard; the unguarded statement is refuted by concrete runs of the code (wrong filter offsets after a flush during a compaction, among others). Writes are atomic at this level; C08 and C13 give the memtable tree and the packed branches.'),
 'C02': ('partial', 'As C01: any run continued by any writes to one key and any background steps within the guard.'),
 'C16': ('partial', 'Any state reached by a guarded run; refuted when the ring of 24 subbundle filters overflows, which the code never checks.'),
 'C17': ('partial', 'Any state reached by a guarded run, every step of a compaction, interleaved with flushes, splits and other compactions. Four refutations: a flush between merge and replacement, an empty output in front of other bundles (two ways), and reuse of a bundle number.'),
 'C18': ('partial', 'Any state reached by a guarded run. The guard asks that the pivot was just flushed (the code splits right after the flush), that the leaf is not empty and that the split keys ascend strictly. The choice of the split keys (Split.v) is proved to ascend, and to cut evenly, if the pivots with the same key have less than the bytes wanted for a leaf; refuted otherwise (equal split keys, an empty leaf). The rough iterators over the branches are lists of keys with counts, not tied to the branches of the leaf; the estimate of distinct keys is arbitrary.'),
 'C19': ('proved', 'Full linearizability of inserts and lookups (Spec_Linear.v), all schedules of any number of inserters, readers, iterators and flushing threads, one shared access per step, sequentially consistent memory. The tree is its list of incorporated writes here (C16-C18 for what is inside); the two locks are atomic (C21).'),
 'C20': ('proved', 'Same model as C19: no assertion fails, progress, retirement in order, contents dropped only after incorporation and with no iterator on them, no incorporation forgotten in whatever order compactions end. A memtable is assumed full only when it is not empty (configuration). An open iterator keeps its slot from reuse, so inserts can stall (example).'),
 'C26': ('partial', 'Closing is refuted: with the largest backlog that inserts allow, closing fails an assertion; with one fewer waiting memtable the last memtable is finalized. C26_reopen and C26_accepted: a database closed completely is served again with the same root, counts and pages. Missing: that the pages written by a close are those of the database (assumed in ws_close; C49_flush shows it for the cache alone) and the link from pages to lookups.'),
 'C27': ('partial', 'As stated it is false for a crash inside close. All histories of create, open, work and close with crashes at any write, starting from a device without a database. Accepted only after a complete super block of a close. Violated for crashes inside close, and for failed creates over a closed database (C27_counts_refuted, C27_failed_create_refuted, C27_dead_create_refuted); a damaged meta page aborts (C27_meta_refuted).'),
 'C42': ('partial', 'As stated it is false: four failure places never give back everything. All failure streams, configurations, devices and thread counts. Proved for every failure except four places, where the claim is false for every run (C42_places_refuted).'),
 'C50': ('proved', 'All schedules of any number of threads, one access to a page lock per step; whether pages are full and where they are cut is chosen by the schedule. Scans are those of the tree at rest. The locks are those of C22.'),
 'C51': ('proved', 'No deadlock, and every reachable state can be brought to rest. Under an unfair schedule an insertion that fails to claim its page can start over for ever; that is in the code.'),
 'C52': ('proved', 'Scans in either direction that run from one bound to the other; the generation of the end leaf is represented by what it stands for. Not a view of one instant: C52_not_one_instant.'),
 'C53': ('proved', 'No deadlock between calls and scans of different threads. A thread that inserts with an iterator of its own open can wait for itself; the header says so (splinterdb.h:312).'),
 'C54': ('proved', 'Every run without reads of given up space is linearizable; every run is, but for the answers of the lookups that read such space (C55 shows there are some). The new branch of a compaction has its messages for all keys, not only those of its node; lookups read all branches.'),
 'C56': ('proved', 'No deadlock and no livelock between the calls of C54. While an incorporation may flush and split as often as the schedule says, nothing is said of the end; and waiting is a step that cannot be taken, so nothing is said of spinning.'),
 'C57': ('partial', 'As stated it is false: discarding filters because the leaf has split gives back the claim of the root a second time, and a memtable that was incorporated can be lost (the _refuted theorems). Proved for all runs in which no such step clears a claim that another thread has, and that only calls that build filters do it. Building filters is modelled as a compaction of no branches.'),
 'C55': ('partial', 'As stated it is false: three _refuted theorems with the runs. Proved: when a branch is given up no lookup at all is at the node that has it, and lookups that took the root the compaction replaced do not come to this node any more. Also proved: the node is on no path from a root there has been since the compaction switched, nor from one about to be switched in, and from then on only lookups come to it that were under way with a root older than the one replaced. These are what the refutations are about.'),
 'C22': ('partial', 'As stated it is false: prefetch and asynchronous gets that give up, 8-bit counters, discards of pinned entries (the _refuted theorems). Proved for all schedules of any number of threads and entries, one shared access per step, in which callers keep their rules and neither a 256th reference through one counter nor an abandoned load that another getter has found happens.'),
 'C49': ('partial', 'As stated it is false: neighbouring pages in a batch writeback, page_sync of a page given back, and a log that does not mark its pages (the _refuted theorems). Proved for all runs in which callers keep their rules, mark what they write, and no entry changes its page between the lookup of its address and the setting of the writeback flag. C49_flush: with no other call in progress, flush ends and everything is on the device. Pages are written and read word by word; I/O does not fail.'),
 'C43': ('partial', 'As stated it is false: a root that is locked or on disk, an empty filter, a branch number that wraps (the _refuted theorems). Proved for all reachable states of the trunk, all keys and all sequences of outcomes of the page requests in which the root is there at once and [fit] holds on the key\'s way; with the root refused any number of times, exactly what is leaked. The nested btree and filter lookups without such conditions. Missing: changes of the database while a lookup is suspended.'),
 'C44': ('partial', 'As stated, for all sizes, it is false: sizes 0, not multiples of 64, or near 2^64 (the _refuted theorems). Proved for all interleavings of requests and frees by any number of threads with the other sizes: fragments are disjoint, inside the segment, at cache lines, stay with their holder, zeroing a recycled one touches nobody, no assertion fails, NULL is returned only for lack of space. Realloc by one thread at a time, not shrinking.'),
 'C38': ('partial', 'As stated it is false: generations 2^31 apart are sorted wrongly (C38_order_refuted) and generation 2^64-1 ends a page. Proved for all sequences of writes by any number of threads with other generations: completed pages read exactly, the iterator has the entries of the completed prefix, and they are in order when generations are less than 2^31 apart. Premise: the first incomplete page does not carry a matching checksum by accident. That completed pages reach the device is false (C49_log_refuted): the log does not mark its pages dirty.'),
 'C47': ('proved', 'All sequences of registering and removing, for ids registered once. Registering an id twice is refuted.'),
 'C48': ('partial', 'Proved for all runs in which no request installs its result before an earlier one has taken its references (misuse, kept) and no index node splits while a request of its height is pending (given back, destroyed); both cases excluded are refuted.'),
 'C35': ('proved', 'All interleavings of any number of threads, groups and workers, at the level of the linked lists; a section under a group mutex is one step. That a task finishes eventually is shown by C35_drain, C35_no_lost_wakeup and C35_no_deadlock rather than under a fairness assumption. task_wait_for_completion is refuted.'),
 'C24': ('proved', 'All interleavings of any number of threads with each other and with the rest of the system, any number of batches, metadata pages and reloads; entries must fit an empty metadata page. Dropping the last reference without the release leaks the reserves (C24_zap_leaks_refuted: shard_log_zap does that).'),
 'C41': ('proved', 'For configurations of ordinary size (record ordinary: counts below 2^31, memtable of 64 KiB to 2^45 bytes) acceptance, defaults, node and filter geometry are exact. Outside it the claim is false: the _refuted theorems list accepted or crashing configurations.'),
 'C25': ('proved', 'Any layout with ascending keys per batch, any ranges, any number of threads and any interleaving with each other, with blocking range queries and with reuse of freed extents. Callers must hold covering references while they take a new one or block (stated in kreach).'),
}
