# A Rocq model of splinterdb

This directory holds a Gallina model of the pinned commit of vmware/splinterdb
(`/repo`, C) and machine-checked proofs of the properties in
`properties.jsonl`.  `MANIFEST.json` maps each property to its theorems and says
what is partial.  `seeded/LOG.jsonl` records how the theorems fared against
deliberately wrong versions of the model.

Build: `cd rocq && coq_makefile -f _CoqProject -o Makefile && make -j4`.
`tools/mkproj.sh` regenerates the file list and `tools/manifest.py` the manifest
(from the theorem names and `tools/manifest_notes.py`).

## Conventions

* Model files hold definitions only.  Every definition cites `file:lines` in
  `/repo`; the header comment of each file says what is simplified.
* Proofs are in the `*Proofs.v` files and, for the two large developments, in
  the `Trunk*.v` and `Mtable*.v` files.
* Properties are the theorems `Cnn_...` in `Prop_*.v`, each with
  `Print Assumptions` and an `Example` (or a second theorem) that shows a
  non-trivial case meeting its hypotheses.  A suffix `_partial` means that the
  statement has a hypothesis which the property does not have; a suffix
  `_refuted` means that the theorem is a counterexample to the property as
  stated: a run of the modelled code that violates it.
* Specifications are in `Spec*.v` and at the head of the `Prop_*.v` files; they
  use lists, byte strings and the user's callbacks only.
* A failed `platform_assert`, an access outside a buffer, a call through NULL
  and undefined arithmetic are `None` or `Abort`, never silently success.
  `debug_assert` is not code (release builds drop it).
* Machine integers are `N`, `Z` or `nat`; where wrap-around can matter the
  `mod 2^k` is written out, where it cannot the header says why.
* The user's callbacks (`key_compare`, `key_hash`, `merge_tuples`,
  `merge_tuples_final`) are fields of a record `data_config`.  What a theorem
  needs from them (`total_order`, `lawful_merge`, Spec.v) is a hypothesis of that
  theorem; `Witness.v` shows a configuration that has it.
* Concurrent code is a transition system with one step per access to shared
  memory and any number of threads; memory is sequentially consistent.

## Which code is modelled

| theories | code | properties |
|---|---|---|
| `Base`, `Spec`, `DataProofs` | messages, keys, merging: data_internal.h, data_internal.c, default_data_config.c | C03, C31 |
| `Codec` | on-disk keys and tuples: data_internal.h:225-456 | C32 |
| `WBuf` | writable buffers, merge accumulators, lookup results: util.h, util.c:10-52, data_internal.h:456-533, splinterdb.c:560-619 | C30 |
| `Parse`, `Hex` | util.c:60-353 | C39, C40 |
| `Search` | searches in B-tree pages and trunk nodes: btree.c:464-533, trunk.c:1579-1676 | C11, C12 |
| `Ring` | circular numbers of trunk nodes: trunk.c:1353-1423 | C46 |
| `Srq` | space reclamation queue: srq.h | C37 |
| `Pcq` | completion queue: pcq.h | C36 |
| `Rwlock` | distributed batch reader/writer lock: platform_linux/platform.c:278-429 | C21 |
| `Tid` | thread ids: task.c:24-135, 208-310, 360-448 | C34 |
| `Task` | task queues, workers, quiescence, shutdown: task.c:454-836, 983-999 | C35 |
| `Alloc` | extent reference counts: rc_allocator.c:320-560, 689-740 | C23 |
| `Mini` | pages from extents: mini_allocator.c:21-732, 765-786, 1002-1044 | C24 |
| `Keyed` | references to key ranges of a branch, blocking queries: mini_allocator.c:788-985, 1046-1233 | C25 |
| `Refs`, `RefsSpec` | which node and which compaction refers to which key range of which branch: the calls of trunk_inc_intersection, trunk_zap_branch_range and trunk_dec_ref in trunk.c (2700-2719, 2911-2982, 3588-3645, 4447-4596, 4856-4960, 5128-5486, 5514-5630, 5930-6106, 7898-7943) | C48 |
| `Config` | defaults, validation and derived geometry: splinterdb.c:71-225, trunk.c:9615-9791 and the functions they call, rc_allocator.c:270-309 | C41 |
| `Life`, `LifeSpec` | creating, opening and closing: splinterdb.c:231-460 and the setup and teardown it calls in laio.c, task.c, rc_allocator.c, clockcache.c, trunk.c; histories of calls with crashes | C42, C27, C26, C47 |
| `Log`, `LogSpec` | the sharded log: shard_log.c:83-462, pages as bytes | C38 |
| `Cache`, `CacheSpec` | the page cache's locks, references, lookup table, eviction, loading, allocation, discarding, writeback and prefetching, access by access: clockcache.c:556-1298, 1425-1732, 1948-2998 | C22 |
| `CacheData`, `CacheDataSpec` | the contents of the pages on top of `Cache`: what is written where by batch_start_writeback, page_sync and flush, what the loads read, what callers write: clockcache.c:1262-1412, 1687-1708, 2236, 2482, 2692-2739, 2929, 2989 | C49 |
| `Shm`, `ShmSpec` | the shared-memory heap: platform_linux/shmem.c:46-134, 241-245, 363-429, 526-1047, and the rounding of sizes, platform_inline.h:429-509 | C44 |
| `PackedArr` | PackedArray.c | C15 |
| `Filter` | routing_filter.c:50-122, 212-299, 325-640, 828-908 | C14 |
| `Page`, `PageBytes` | B-tree pages, as slots and as bytes; the two are proved to agree | C09 |
| `Btree` | insertion, splits and lookup of the memtable tree: btree.c:464-1053, 1330-1641, 1699-2189 | C08, C10, C28, C29 |
| `CBtree`, `CBtreeSpec` | the memtable tree used by many threads, page lock by page lock: btree.c:1331-2137; the scans of the tree at rest | C50, C51 |
| `CScan`, `CScanSpec` | forward scans of that tree beside insertions: btree.c:2585-3002, one access to a page lock per step | C52, C53 |
| `CTrunk`, `CTrunkSpec` | the trunk used by many threads, lock by lock: lookups, incorporations with flushes and splits, compactions and what they give up: trunk.c:1126-1339, 2841-2929, 3668-3772, 4656-4763, 5339-5435, 6084-6115, 6940-7031 | C54, C55, C56 |
| `CTrunkFilter` | the same, with the claim of the root as a bit, and filters that are discarded because the leaf has split: trunk.c:4243-4420, 1207-1271, platform.c:385-390 | C57 |
| `BtreeIter` | btree.c:2455-3010 | C04, C05, C33 |
| `Pack` | btree_pack and the counts of a branch: btree.c:1644-1685, 3015-3352 | C13, C45 |
| `Merge` | merge.c | C05, C06, C07, C33 |
| `TrunkNode`, `TrunkTree` | trunk nodes with their four circular arrays and pivots, and one step for every change of the trunk that is published at once: incorporation, flush, leaf and index split, the growing root, and the parts of a compaction (merge, replacement, filters built, filters installed); lookup | C01, C02, C16, C17, C18, C29 |
| `Split` | how many leaves a leaf becomes and at which keys: trunk.c:5721-5908 | C18 |
| `Range`, `RangeSpec` | iterators over the whole database and trunk_range: trunk.c:6148-6555, 7600-7636, splinterdb.c:656-774 | C04, C05, C33 |
| `Async`, `AsyncNested`, `AsyncSpec` | the asynchronous lookup and its callbacks: trunk.c:7033-7597, btree.c:2203-2453, routing_filter.c:946-1162 | C43 |
| `Mtable` | memtable.h, memtable.c and the memtable part of trunk.c: rotation, compaction, incorporation, lookups, iterators' references, closing | C19, C20, C26 |

Layers are connected by what the lower one proves: the trunk treats a memtable
as the sorted list of its tuples (C08), a branch as the sorted list of its tuples
(C13) and a filter as the set of pairs added to it (C14); the memtable protocol
treats a memtable as its list of writes and the trunk as the list of all writes
incorporated (C16-C18), and the locks as atomic (C21).

### The trunk

The code serialises changes of the trunk by the claim on the root and publishes
each by switching the root (trunk.c:1205-1339), so a state is one tree.  A run
is any sequence of writes and background steps: a step may happen at any time at
any place in the tree, which includes every schedule of the code.  The invariant
(`TrunkInv.v`) is stated on *views*: what one height of the tree holds for one
key.  Each compaction job carries what it relies on (`job_ok`) while other steps
are taken.  `guard` (`TrunkLegal.v`) lists the conditions under which each step
keeps the invariant:

* established by the code: keys below +infinity, heights in range, a pivot that
  was just flushed when its child is split, a node with two children when it is
  split, a fresh bundle number when a compaction starts;
* not established by the code, each with a refutation in `Prop_Trunk.v`: room in
  the ring of subbundle filters; no flush of a pivot between the merge of a
  compaction and its replacement; a compaction with an empty output only for the
  last bundle of its node; no reuse of a bundle number while a compaction for it
  is outstanding; room for a twelfth bundle;
* the keys at which a leaf is split ascend strictly: proved in `Prop_Split.v` for the
  choice that the code makes, if the pivots with one and the same key (at most one in
  each branch) have less bytes below them than a new leaf is to have, refuted otherwise;
* not modelled, so assumed: the leaf is not empty.

`Split.v` models that choice.  The estimate of the number of distinct keys is any number;
the rough iterators are sorted lists of keys with counts, of which only the order, the
bounds and the largest count matter.  That they are the index pages of the branches of the
leaf is not modelled.

### Range references

`Keyed` starts from a finished branch: metadata pages whose entries form, for each
batch, a run with ascending keys closed by a terminal entry, one batch (that of
the root) having a single extent.  That packing produces such a layout is read off
btree.c and mini_release, not proved.  The callers' discipline is in `kreach`: a
range may be referenced or blocked only while references covering its keys are
held, and a reference to [a, c] together with one to [p, p] may be given up as
[a, p] and [p, c], which is what node splits in the trunk do (trunk.c:2716, 2920,
2971-2979, 3189-3195, 5417).

### Who refers to which branch

`Refs` records the calls that change the references of branches, in order, next to
a simpler tree than that of `TrunkTree`: levels of nodes, each with pivots and a list
of bundles, each pivot knowing how many of the oldest bundles are dead for it.  A
compaction is a request with phases (queued, reading, placing) that holds references
of its own.  `RefsSpec` counts the references of one extent, given by the keys
between which it lies; how the extents of a branch follow from its pages and what
one call does to them is `Keyed` (C25).  The invariant (`RefsInv`) says that the count
is the number of live (node, pivot, bundle) pieces that meet the extent, plus the
readers, plus for each branch being placed what is left of the first reference.

Two cases are excluded from the theorems, each with a refutation: an index node that
splits while a request of its height is pending (`creach`; the theorems about misuse
hold without this), and a request that installs its result before an earlier one has
taken its references (`oreach`).  Filters' references, old versions of nodes read by
lookups and iterators, and crashes are not part of this model.

### Creating, opening and closing

A call is run against a stream that says which fallible step fails, and gives an
outcome and a list of events: resources acquired, released and used, and writes to
the device (`Life.v`).  `LifeSpec.v` judges the events only.  Histories of calls let
the process die between any two writes or in the middle of one; a half-written meta
page or super block is detected by its checksum, other pages are arbitrary afterwards,
each reference count is old or new.  Simplified: the database below the super block is an
`image` that calls transform by a parameter; that closing writes back every dirty
page is assumed in `ws_close`; devices start without a database (`C27`); the only id is 1,
as in splinterdb.c.

### The log

Writes by any threads, as a sequence (a thread writes its own page under that page's
lock).  Pages are byte arrays; what was in memory before is arbitrary.  `LogSpec.v` has
pages as lists of entries, filled greedily.  Simplified: the checksum is any function
to 16 bytes; the extents are a parameter; qsort_r gives a permutation, in order if the
comparison is consistent; writing a page back is not modelled, the reader sees the last
write.  The premise `no_accident`: the first page that is not complete does not carry a
matching checksum by accident.  Nothing but the tests reads a log; generations are per
memtable leaf (btree.c:678, trunk.c:3414), so generation order is not the order of
operations over several leaves or memtables.

### The page cache

Any number of agents, each a call in progress or a page in the hands of a caller; a
thread with three pages is three agents.  One step is one access to a status word, a
reference counter, an address, a lookup slot or a batch lock.  `kept` (`CacheSpec.v`)
are the runs in which callers keep their rules (an address is got only while its
extent is allocated, discarded only when no get of it is in progress, allocated only when
it is not cached, no cache_evict) and in which two things that the code does not prevent
do not happen: a 256th reference through one counter, and a prefetch or asynchronous
get that gives up an entry another getter has found.  C22 is proved for `kept`; each
premise that is not the callers' business has a refutation.  The invariant is one
condition per place in the code and one per pair of places (`CacheLocal.v`), the
counters and the lookup table (`CacheProofs.v`), writeback and dirt (`CacheClean.v`), no
stale lookup slots (`CacheMap.v`).
Not modelled: statistics, extents as units of I/O, the order in which the hand visits
batches, progress.  A thread that drops a reference another
thread took decrements the wrong counter; the model gives each agent one thread.

`CacheData.v` adds buffers, the device and, per agent, what a writeback remembers (the
address it will write to, the words it has moved).  An I/O moves one word per step, in any
order.  The specification (`CacheDataSpec.v`) is a promise for each word of each page: what
was last written by a holder of the write lock, or what the device had; none while the page is
being allocated or discarded.  `dkept` are the `kept` runs in which callers mark what they
write before they unlock, and in which no entry changes its page between the moment a writeback
has looked up its address and the moment it sets the flag.  The invariant `J`
(`CacheDataProofs.v`) says where the promise is: in the buffer unless the page is being loaded,
and on the device if the page is not cached, is being loaded, or is clean with no unmarked
write.  `CacheFlush.v` shows that every flag has an owner, so that flushing a cache nobody
uses leaves nothing dirty.  Left out: extent_sync, which nothing calls and which could not
work (its callback, 2760-2767, dereferences the cache as a pointer to the cache and divides the
number of pages by the page size).

### The shared-memory heap

Any number of threads or processes; one step is one section under one of the heap's two
spin locks.  The reading of `shm_next` by the assertion at shmem.c:542 is a step of its
own, with the call.  `reach` (`ShmSpec.v`) are all interleavings of calls whose sizes are
positive multiples of 64 that do not wrap when added to the segment's end; a caller frees
only fragments it holds, once.  Each half of that rule on sizes has a refutation.  A
fragment carries, for the proofs only, the size reserved at its address.  The invariant
(`ShmProofs.v`) counts, for each byte, the regions that cover it.  Simplified: pids and
thread ids in the tracker are one bit; contents are left out, writes appear as ranges.

### The asynchronous lookup

Each of the three lookups is a machine: one turn of its loop, given the outcome of the
request for a page (there, refused, I/O started), gives the next context, a return to the
caller, the result, or death (a failed assertion, or an access through NULL or beyond an
array).  `drive` is the caller: it calls again after a refusal, and after the callback
when an I/O was started.  The sequence of outcomes is arbitrary.  The proofs
(`AsyncProofs.v`, `AsyncTrunk.v`) relate every context to the result still to come and to
a measure that decreases with every turn except a refusal; so a lookup that ends has the
synchronous result, and it ends if requests are not refused for ever (`fair`).  `fit`
(`AsyncSpec.v`) states what trunk_lookup_async takes for granted on the key's way through
the trunk: no subbundle visited has an empty filter, and no branch of an uncompacted
subbundle is numbered beyond the array.  Each condition has a refutation, and so has each
outcome other than "there" for the root.  Simplified: the database does not change while a
lookup is suspended; in the trunk's machine a nested lookup is a number of requests
followed by the result of the synchronous one, which the theorems about the nested
machines justify; a page got is a value.

### Range iterators

`Range.v` is the composition of the trunk and the merge iterator: the way down to a leaf
collecting branches, the merge within the bounds of the leaf, and a new start at the next
or previous leaf when it is exhausted.  A source is the sorted list of a branch's tuples
between the bounds with a position; that the B-tree iterators show this list is C04 and
C05 at the level of one tree.  `RangeProofs.v` shows that the collected branches hold, for
every key of the leaf, exactly the messages that make up the content of the database, and
from C07 that a forward iteration lists the dictionary.  Every call runs in a state of its
own, reached from the first by any background work, so flushes, splits and compactions
between two calls are covered.  Writes between the calls are not: the sources include the
memtable that takes inserts.  `fits` asks for at most 256 branches on the way down, the
size of the iterator's array; the code checks that for index nodes only (6240), in a leaf
it writes beyond the array (6267-6279).  `fits_small` gives it for trees of ordinary size.

### The memtable protocol

The invariant (`MtableInv.v`) has one clause per kind of thread position and per
state of a memtable; `MtableProofs.v` ... `MtableHist.v` prove each clause kept by
each step.  `MtableLin.v` derives linearizability of the history of calls and
returns (`Spec_Linear.v`), `MtableLive.v` absence of failed assertions, progress
and that nothing is left behind.  Whether a memtable is full is a choice of the
schedule, but an empty one is not full (with a memtable capacity so small that it
is, the assertion at trunk.c:3493 fails).

### The memtable tree under many threads

`CBtree.v` has a step for every access to a page lock in btree_insert and btree_lookup:
getting, claiming (which fails if another thread claims), announcing a lock, waiting for the
readers, releasing.  Locks are not stored: the pages a thread has, claims or has locked
are functions of where it is, and the steps ask them of the other threads.  The invariant
(`CBtreeInv.v`) is a tree with ghost bounds: the keys of each page lie between the bounds that
its parent's pivots give, except that a page being split already has its upper half
announced in the parent (`CBtreeSplit.v`); nobody can be there, since it is locked.  A thread
below the root has a page whose bounds contain its key.  The instant of an insertion is the
write of the leaf, or of the half the key goes to; of a lookup, the search in the leaf.
`CBtreeLin.v` puts the call history together, `CBtreeRest.v` has the scans, `CBtreeLive.v` the
absence of deadlock (a thread waits only for deeper pages or for the leaf to the right), and
`CBtreeEnd.v` that all calls can end.  It is not shown that they do under every schedule: an
insertion that fails to claim starts over.  What the code does when the merged message
cannot be built again (2031-2036: the parent stays claimed) is not modelled.

### Scans beside insertions

`CScan.v` puts scans next to the threads of `CBtree.v`: a thread waits for a scan that has the
page it wants to lock and is refused a claim a scan has; a scan waits for locked pages.  A
scan is one call from a lower to an upper bound; the caller reads one leaf in one step, while
the iterator has a reference to it.  `CScanSpec.v` says what a scan is worth: pieces of the
table, each read at one instant, one after the other from bound to bound.  That is less than
a view of one instant (`C52_not_one_instant`).  The proof (`CScanProofs.v`) rests on two facts:
a step of a thread leaves the pages it has not locked alone, and a leaf other than the first
never changes its lower bound (`frame` in `CBtreeProofs.v`); so the place a scan has come to
and the leaf that holds its end stay where they were whatever is split.  The check of the
end leaf (2632-2661) is what finds a split of the end leaf.  A scan back remembers the leaf
it came from; the leaf its prev pointer named is still left of it, and walking forward
(2698-2703) comes to the leaf just before.  That reading the first key of a leaf (2709) is
allowed and tells where the leaf begins is the part `hd_ok` of the invariant.  `CScanSees.v` draws the
consequences, `CScanLive.v` shows that no set of threads and scans waits in a circle.

### The trunk under many threads

`CTrunk.v` has the copy-on-write of the trunk: an incorporation copies the root, works on
copies nobody knows, and switches the root; a compaction copies the root, switches it at once
and copies the way down hand over hand under locks, puts its branch in, walks the old way with
write locks to drain readers, and gives the old branches up.  A read of given up space yields
whatever the schedule says and is marked in the trace (`Stale`).  `CTrunkSpec.v` is a table with
calls that act at one instant.  In the proof the ghost `ef` is the nodes as they would be without
the edit a compaction is in the middle of; `eff` (`CTrunkOps.v`) says of every change of the nodes
that what is found below any older node for any key in its range is as before.  `frame`
(`CTrunkProofs.v`) is the step of one thread; pages an incorporation has made are `sealed`: nothing
outside leads to them.  The instant of a lookup is that of taking the root, of an incorporation the
switch.  C55 is false and C54 says what holds all the same: every answer but those of lookups that
read given up space is right.  `CTrunkLive.v` numbers the pages by the copy of the root they were
made under; a thread waits only for pages with smaller numbers or farther down (C56).
That runs end is by a measure: the keys and levels that compactions and incorporations
have still to go through, then the levels and branches of lookups (`CTrunkEnd`).
What is left of C55: `CTrunkDrain` has that nobody reads the node whose branches are given up;
`CTrunkPath` records the root each thread took last (`gruns`) and has that lookups with the root a
compaction replaced are, when the compaction is at a node of the old way, not above it.  Pages
nobody will change any more (`fz`) carry the argument: a way through them stays.
`CTrunkWay` records the roots since each thread switched last (`hruns`): the copy a compaction has
made is on the ways of its keys from all of these, and from those that other threads have copied but
not switched in; so the node it was copied from is not.  A way is the lookup in a trunk whose only
branches are at one page (`skel`), so that what the lemmas on contents say holds of ways too.
No step makes a way to a page nobody will change any more (`step_only`), so it stays off all ways
(`dead`): only lookups under way with a root older than the one replaced can still come to it.

## Which code is not modelled

* Weak memory: compiler and CPU reordering of accesses without barriers.
* The operating system, I/O, asynchronous I/O completion (except the completion
  queue), creating and attaching shared memory segments (the heap inside one is modelled)
  and forked processes.
* The other models do not go through the page cache: there pages are values (C22 is
  about the cache itself).
* Statistics, logging, printing and verification code.
* Iterators that seek or turn round over a memtable's tree while it takes insertions (`CScan`
  has scans from one bound to the other).  In `Btree` and `Mtable` one insertion is one step; C50 is what allows that.
* In the trunk: when to flush, split and compact; the estimate of distinct keys that
  leaf splits use (trunk.c:5632-5677) and the counts given to new leaves; space reclamation (trunk.c:6555-6775); reference counts of filters; failures of memory allocation; changes during an asynchronous lookup
  and writes during an iteration; reference counts, prefetching and failed allocations of
  the range iterator (among them splinterdb.c:692, which frees the caller's uninitialized
  pointer instead of the iterator).
* Tests, the platform layer other than the lock and the completion queue, and the
  `unit`/`functional` drivers.

Seen while reading, not modelled: trunk.c:3823 ignores a failed allocation.

Properties without a theorem yet are absent from `MANIFEST.json`.

## Findings

Properties that the code violates as stated; each is a theorem whose name ends in
`_refuted`, with the run that shows it.

| theorem | what goes wrong |
|---|---|
| `C55_reads_given_up_space_refuted`, `C55_wrong_answer_refuted` | a compaction drains readers only along the path of the root it replaced (trunk.c:2841-2929); an incorporation switches the root without draining (3668-3772).  A lookup that still has the root of before the incorporation comes to a node both roots share after its branches were given up |
| `C55_two_compactions_refuted` | the same without an incorporation: a second compaction has the root the first switched in as its old root, and does not meet a lookup that the first still waits for |
| `C57_two_claims_refuted`, `C57_lost_memtable_refuted` | when filters are discarded because the leaf has split, the claim of the root is given back a second time (trunk.c:4313; 1270 has done it): if another thread has it by then, a third can take it, and of two copies of the root the later switched in loses what the other has, an incorporated memtable for instance |
| `C17_flush_during_compaction_refuted`, `C01_lookup_follows_history_refuted` | fingerprint offsets count only the pivots for which the bundle was live at replacement (trunk.c:4083-4157): after a flush in between, filters get other keys' fingerprints and lookups return old values |
| `C17_empty_compaction_refuted` | an empty bundle is removed and the filters behind it move, but the subbundles keep their filter numbers (2990-3066) |
| `C17_renumbered_bundles_refuted`, `C29_renumbered_bundles_abort_refuted` | outstanding compactions keep the old bundle numbers |
| `C17_reused_bundle_number_refuted` | bundle numbers repeat after twelve while a compaction is outstanding |
| `C16_filter_ring_overrun_refuted` | 24 subbundle filters, never checked: a flush overwrites live ones |
| `C29_twelfth_incorporation_aborts_refuted` | room for 11 bundles; only branches are checked |
| `C29_accepted_updates_abort_refuted`, `C29_inline_sized_inserts_abort_refuted` | merged messages or long keys that do not fit a page after a split |
| `C27_counts_refuted` | closing writes "closed" before the reference counts; after a crash in between, open is accepted with old counts |
| `C27_failed_create_refuted`, `C27_dead_create_refuted` | a create that fails or dies on a closed database changes it, and open still accepts it |
| `C27_meta_refuted` | a damaged meta page aborts the process (rc_allocator.c:452-458) |
| `C42_places_refuted`, `C42_descriptor_refuted`, `C42_group_refuted`, `C42_register_refuted`, `C42_queue_refuted` | failure paths leak the file descriptor (laio.c:189-202), destroy a task group twice (task.c:604-642, 924-925), ignore a failed registration (915), leave a lock (trunk.c:7811) |
| `C48_leak_refuted` | an index node splits while one of its bundles is compacted and the bundle is flushed from one half before the result is installed: the new branch keeps its first reference for the keys of that half for ever (trunk.c:5399-5419) |
| `C48_overtaken_refuted` | a request reads the node as it was when it was queued (5144) and takes references only at 4871: if a later request for the child is carried out first, the branches it will read may have been given back |
| `C47_twice_refuted` | registering an id twice takes two slots (rc_allocator.c:599-631) |
| `C26_close_with_backlog_refuted` | closing with three memtables waiting fails an assertion (memtable.c:265-281) |
| `C04_tree_clamped_starts_refuted`, `C05_tree_*_refuted`, `C05_start_below_a_bound_refuted` | B-tree and merge iterators: reversing at leaf gaps and at bounds loses keys |
| `C05_stepping_back_skips_keys_refuted` | stepping back across the boundary of two leaves skips keys when more than one source has keys in the lower leaf (trunk.c:6456-6512 with merge.c:464-532) |
| `C05_no_way_back_refuted`, `C33_prev_then_next_refuted` | behind the last (before the first) key of the database can_prev (can_next) is that of the merge in one leaf: if that leaf has no keys, the iterator cannot turn round (trunk.c:6361-6365, 6380-6384) |
| `C33_next_then_prev_refuted`, `C33_valid_iterator_has_a_tuple_refuted` | iterator wrapper: direction changes |
| `C14_crowded_index_refuted`, `C14_default_geometry_crowded_refuted`, `C14_index_size_refuted`, `C14_empty_filter_refuted`, `C14_value_31_refuted` | limits of the routing filter that nothing checks |
| `C13_pack_oversize_tuple_refuted` | a tuple that does not fit a page stops the packing |
| `C15_pack_nothing_refuted`, `C15_wide_items_refuted` | packed arrays: packing no items, items wider than the width |
| `C23_no_space_concurrent_refuted` | an allocation can fail though an extent is free throughout |
| `C38_order_refuted` | the comparison of generations is cut to an int (shard_log.c:323): wrong order when they are 2^31 apart |
| `C38_hidden_refuted` | a page that one thread has not completed hides all later pages of the others |
| `C38_stale_refuted` | magic numbers repeat in every process (shard_log.c:22, 98-99): pages of an old log are accepted |
| `C38_last_generation_refuted`, `C38_can_prev_refuted` | generation 2^64-1 ends a page; can_prev is always true (446) |
| `C22_prefetch_refuted`, `C22_noreqs_refuted` | a prefetch that loses the lookup slot (clockcache.c:2950-2977), and an asynchronous get without an I/O request (2464-2475), free an entry that another getter has already found: it returns with a free entry, or one that is another page |
| `C49_neighbour_refuted`, `C49_unmapped_refuted` | batch writeback finds neighbouring pages by lookup and sets the writeback flag of the entry afterwards (clockcache.c:1356-1374), then looks the buffers up again (1391): if the entry was reused in between, a locked dirty page becomes clean and its changes are lost, another page keeps the writeback flag for ever, or the lookup gives the entry "unmapped", outside the array |
| `C49_sync_refuted` | page_sync reads the page's address before it sets the writeback flag (2700-2704), and trunk.c:956-957 calls it for a page already given back: another page's data can be written to the address |
| `C49_log_refuted` | shard_log_write (shard_log.c:216-279) never marks the page dirty: entries written after a cleaner has written the page are lost, and the sync of the full page (256) does nothing |
| `C22_wrap_refuted` | reference counters have 8 bits; 256 references through one are none |
| `C22_evict_all_refuted` | cache_evict (tests only) takes no batch lock: two claims on one page |
| `C22_pin_refuted` | a discard resets the pin count after freeing the entry (2048-2051): the next page's pin is lost |
| `C22_sync_refuted` | page_sync asserts that the page is clean although the cleaner may be writing it (2704-2705) |
| `C44_empty_refuted` | a shared-memory request of size 0 gets the address of the next fragment; freeing it frees that one (shmem.c:743-757), and the memory is handed out twice.  platform_realloc to size 0, documented as freeing (platform_inline.h:483), makes such a request |
| `C44_unaligned_refuted` | a size that is not a multiple of 64 (an alignment below 64) makes every later request abort (542) |
| `C44_huge_refuted` | the test against the segment's end wraps (573): a huge request succeeds and moves the unused part back over fragments in use |
| `C44_shrink_refuted` | platform_shm_realloc copies the old size (657), also into a smaller fragment.  The only caller, util.c:23, grows |
| `C44_alignment_refuted` | alignments above 64 are not honoured; rc_allocator.c:243 asks for a page's |
| `C44_lost_refuted` | small fragments freed in any order but last first, and all but one even then, are lost until the segment goes |
| `C43_busy_root_merges_twice_refuted`, `C43_busy_root_leaks_partial` | an asynchronous lookup that finds the root locked looks into the memtables again with the same accumulator, so an update in a memtable counts twice, and keeps a read lock on the memtables for ever (trunk.c:7172-7199 does not set the next state) |
| `C43_root_from_disk_refuted` | if the root has to be read from disk, the callback moves on as if it were a child and the process dies (trunk.c:7054-7077, 7548-7559) |
| `C43_wrapped_branch_refuted` | the branch number in a subbundle is wrapped and then overwritten by the plain sum: a read beyond the array (trunk.c:7372-7374) |
| `C43_empty_filter_refuted` | a subbundle without tuples for the pivot has no filter; the asynchronous lookup asserts that it has one (trunk.c:7280-7281) |
| `C18_equal_split_keys_refuted` | a leaf can be split twice at the same key, which makes a leaf with an empty range (trunk.c:5850-5886 does not compare with the previous key).  No wrong lookup is known to follow |
| `C18_split_key_array_refuted` | a split into 20 leaves or more writes beyond the array of split keys (trunk.c:5883); the check at 5902 comes after.  Whether a leaf gets so large is not modelled |
| `C24_zap_leaks_refuted` | shard_log_zap drops the log without mini_release: one extent per batch leaks |
| `C41_wrap_refuted`, `C41_undefined_refuted`, `C41_limits_refuted`, `C41_filter_refuted`, `C41_ignored_refuted` | configurations that are accepted, or not refused cleanly: wrapping size checks, division by zero, clz(0), an endless loop, 21 pivots for arrays of 20, a branch ring of size 0, filters that can never be built, a documented default that is not set |
| `C36_wraparound_refuted` | ticket counters wrap at 2^32 when the capacity does not divide it |
| `C37_update_priority_64bit_refuted` | 64-bit priorities |
| `C31_default_order_unbounded_refuted` | int truncation in comparisons of strings of 2^31 bytes or more |
| `C35_wait_for_completion_refuted` | task_wait_for_completion does not wait for running tasks (also `C35_stop_with_running_task`: a group is shut down while a task runs) |
| `C12_greater_without_premise_refuted`, `C30_use_after_deinit_refuted` | preconditions that callers must meet |

## Trusted base

* Coq 8.16.1's kernel (including `vm_compute`, which some examples and
  refutations use).
* `Print Assumptions` for every theorem `Cnn_...` answers "Closed under the
  global context": no axioms, neither our own nor the standard library's.
* Libraries: Coq's standard library only.
* The correspondence between the model and the C code, which is by reading; every
  definition cites the lines it stands for.
