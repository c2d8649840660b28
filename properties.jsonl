{"id": "C01", "title": "Integer helpers compute the mathematical function they name", "statement": "For every 32-bit power of two the internal log helper returns its exponent; for every x with 1<=x<=2^31 the power-of-two helper returns the least power of two >= x (and x=0 gives 0); max returns the larger argument; the portable find-first-set returns 1+index of the lowest set bit (0 for 0), count-trailing-zeros returns that index, and popcount returns the number of set bits.", "quantifier": "all 32-bit inputs (inputs above 2^31 for power_2 are covered by an explicit separate clause)", "why_tests_cant": "2^32 inputs; tests sample a few dozen.", "anchors": ["src/ck_internal.h: ck_internal_log, ck_internal_power_2, ck_internal_max", "include/ck_cc.h: ck_cc_ffs, ck_cc_ctz, ck_cc_popcount"]}
{"id": "C02", "title": "Exponential backoff doubles up to its ceiling and never exceeds it", "statement": "Each backoff call spins exactly the current count, and after it the count is the doubled value if the old one was below the ceiling, otherwise unchanged; starting from the initializer the count never exceeds the ceiling and reaches it after finitely many calls.", "quantifier": "every number of calls, every starting count", "why_tests_cant": "Spin counts are not observable in a unit test.", "anchors": ["include/ck_backoff.h: ck_backoff_eb"]}
{"id": "C03", "title": "A bitmap is a set of indices", "statement": "After any sequence of set, reset, bts, test on a bitmap with n bits, test(i) reports membership of i in the abstract set obtained by the same sequence of inserts and deletes, bts(i) returns the previous membership, and no operation changes any other index.", "quantifier": "all n, all histories of operations with in-range indices", "why_tests_cant": "Histories and sizes are unbounded; off-by-one errors at block boundaries only show for particular n and i.", "anchors": ["include/ck_bitmap.h: CK_BITMAP_SET, CK_BITMAP_BTS, CK_BITMAP_RESET, CK_BITMAP_TEST"]}
{"id": "C04", "title": "Bulk bitmap operations are pointwise set operations", "statement": "union, intersection, intersection_negate and clear leave the destination holding exactly the pointwise result (indices beyond the shorter source count as absent), for bitmaps of any, possibly different, lengths, and modify only the destination; an index is a member of the destination only if it is below the destination's length.", "quantifier": "all pairs of bitmaps of all lengths", "why_tests_cant": "Mismatched lengths with partial last blocks are a combinatorial space that unit tests sample at a few points.", "anchors": ["include/ck_bitmap.h: ck_bitmap_union, ck_bitmap_intersection, ck_bitmap_intersection_negate, ck_bitmap_clear"]}
{"id": "C05", "title": "Bitmap queries agree with the set they query", "statement": "empty(limit) holds iff no index below limit is set; full(limit) iff all indices below limit are set; count(limit) is the number of set indices below limit; count_intersect the number set in both; limit is clipped to the bitmap length.", "quantifier": "all bitmaps, all limits including those inside a block and beyond the end", "why_tests_cant": "Every limit position relative to every block boundary has to be right at once.", "anchors": ["include/ck_bitmap.h: ck_bitmap_empty, ck_bitmap_full, ck_bitmap_count, ck_bitmap_count_intersect"]}
{"id": "C06", "title": "Bitmap iteration enumerates exactly the members, ascending, once", "statement": "Iterating from a fresh iterator to exhaustion yields precisely the set indices below the length in strictly increasing order, and terminates.", "quantifier": "all bitmaps reachable by API calls", "why_tests_cant": "A skipped or duplicated bit depends on the global bit pattern; patterns are exponential in n.", "anchors": ["include/ck_bitmap.h: ck_bitmap_iterator_init, ck_bitmap_next"]}
{"id": "C07", "title": "Array commit publishes exactly the requested elements", "statement": "After init and any sequence of put, put_unique, remove ended by commit, the elements visible to iteration are, as a multiset, those of the abstract multiset after the same operations (failed operations contributing nothing).", "quantifier": "all histories, all initial capacities >=1, every pattern of allocation success and failure", "why_tests_cant": "Growth, elimination and transaction paths combine with arbitrary histories.", "anchors": ["src/ck_array.c: ck_array_init, ck_array_put, ck_array_put_unique, ck_array_remove, ck_array_commit", "include/ck_array.h: CK_ARRAY_FOREACH"]}
{"id": "C08", "title": "Array readers do not see uncommitted changes", "statement": "Between two commits, iteration over the array yields exactly the elements published by the last commit, whatever puts and removes have been issued since.", "quantifier": "all histories of operations after any commit", "why_tests_cant": "Depends on the history of earlier pending operations, e.g. a remove while a put is pending.", "anchors": ["src/ck_array.c: ck_array_put, ck_array_remove, ck_array_commit", "include/ck_array.h: CK_ARRAY_FOREACH"]}
{"id": "C09", "title": "Array operations report success truthfully", "statement": "put returns true iff the element was scheduled for insertion and false only when memory allocation failed (nothing changed); put_unique returns 0 when inserted, 1 when already present, -1 only on allocation failure; remove returns true iff the element was present and has been scheduled for removal.", "quantifier": "all histories, all allocation failure patterns", "why_tests_cant": "The wrong answer needs a put that has to grow an array with an open transaction.", "anchors": ["src/ck_array.c: ck_array_put, ck_array_put_unique, ck_array_remove", "doc/ck_array_put", "doc/ck_array_put_unique"]}
{"id": "C10", "title": "Single-producer single-consumer ring is a linearizable bounded FIFO", "statement": "With one producer calling enqueue (or reserve then commit) and one consumer calling dequeue, every concurrent history is linearizable to a FIFO queue of capacity size-1: dequeue returns elements in enqueue order, none lost, duplicated or invented; enqueue fails only when size-1 elements are present and dequeue fails only when the queue is empty.", "quantifier": "all power-of-two sizes up to 2^31, all interleavings of memory operations, any number of operations including 2^32 counter wrap-around", "why_tests_cant": "Wrap-around of the 32-bit cursors and the publish/consume race windows are unreachable for tests.", "anchors": ["include/ck_ring.h: ck_ring_init, _ck_ring_enqueue_sp, _ck_ring_dequeue_sc, _ck_ring_enqueue_reserve_sp, _ck_ring_enqueue_commit_sp"]}
{"id": "C11", "title": "Ring size and capacity report the number of buffered elements", "statement": "In a quiescent ring ck_ring_size equals the number of elements enqueued and not yet dequeued, the size reported by the *_size enqueue variants equals the occupancy seen by that call, and capacity equals the value given at init.", "quantifier": "all histories, including after counter wrap-around", "why_tests_cant": "Wrap-around needs 2^32 operations.", "anchors": ["include/ck_ring.h: ck_ring_size, ck_ring_capacity, ck_ring_enqueue_spsc_size"]}
{"id": "C12", "title": "Multi-producer multi-consumer ring is a linearizable bounded FIFO", "statement": "With any number of producers and consumers, successful enqueues and dequeues are linearizable to a FIFO of capacity size-1: no element is lost, duplicated, overwritten or returned before it was enqueued; order is FIFO.", "quantifier": "every number of threads, every client program (sequence of API calls per thread that respects the documented calling protocol) and every interleaving of the atomic memory operations, cursors taken without wrap-around ABA (fewer than 2^32 operations during one call)", "why_tests_cant": "A test runs a handful of schedules on one machine; the claim ranges over all interleavings and all thread counts, and the losing window is a few instructions wide.", "anchors": ["include/ck_ring.h: _ck_ring_enqueue_mp, _ck_ring_dequeue_mc, _ck_ring_trydequeue_mc, _ck_ring_enqueue_reserve_mp, _ck_ring_enqueue_commit_mp"]}
{"id": "C13", "title": "Ring validity check and repair agree with a healthy ring", "statement": "ck_ring_valid returns true on any ring obtained by init and complete enqueue/dequeue calls, and ck_ring_repair applied to such a ring leaves its contents unchanged.", "quantifier": "all histories of completed operations of all ring variants", "why_tests_cant": "Requires checking every reachable ring state.", "anchors": ["include/ck_ring.h: ck_ring_valid, ck_ring_repair"]}
{"id": "C14", "title": "Single-producer single-consumer list FIFO is linearizable", "statement": "With one enqueuer and one dequeuer, the linked FIFO is linearizable to an unbounded FIFO queue; recycle returns only entries whose contents have already been dequeued, each at most once, and isempty is true only if the queue is empty at that moment.", "quantifier": "all histories and interleavings", "why_tests_cant": "A test runs a handful of schedules on one machine; the claim ranges over all interleavings and all thread counts, and the losing window is a few instructions wide.", "anchors": ["include/ck_fifo.h: ck_fifo_spsc_init, ck_fifo_spsc_enqueue, ck_fifo_spsc_dequeue, ck_fifo_spsc_recycle, ck_fifo_spsc_isempty"]}
{"id": "C15", "title": "Multi-producer multi-consumer list FIFO delivers in order, exactly once", "statement": "Successful enqueues and dequeues of the MPMC list FIFO are linearizable to a FIFO queue when entries are not reused while operations that may still reference them are in flight; a dequeue reports empty only if the queue was empty at some point during the call.", "quantifier": "every number of threads, every client program (sequence of API calls per thread that respects the documented calling protocol) and every interleaving of the atomic memory operations", "why_tests_cant": "A test runs a handful of schedules on one machine; the claim ranges over all interleavings and all thread counts, and the losing window is a few instructions wide.", "anchors": ["include/ck_fifo.h: ck_fifo_mpmc_init, ck_fifo_mpmc_enqueue, ck_fifo_mpmc_tryenqueue, ck_fifo_mpmc_dequeue, ck_fifo_mpmc_trydequeue"]}
{"id": "C16", "title": "UPMC stack is a linearizable LIFO for entries pushed once", "statement": "Push, trypush, pop, trypop and batch_pop by any number of threads are linearizable to a LIFO stack provided no entry is pushed again while a pop that may have read it is in progress (unique-producer discipline).", "quantifier": "every number of threads, every client program (sequence of API calls per thread that respects the documented calling protocol) and every interleaving of the atomic memory operations", "why_tests_cant": "A test runs a handful of schedules on one machine; the claim ranges over all interleavings and all thread counts, and the losing window is a few instructions wide.", "anchors": ["include/ck_stack.h: ck_stack_push_upmc, ck_stack_trypush_upmc, ck_stack_pop_upmc, ck_stack_trypop_upmc, ck_stack_batch_pop_upmc"]}
{"id": "C17", "title": "MPMC stack is a linearizable LIFO even when entries are reused immediately", "statement": "Push and pop by any number of threads are linearizable to a LIFO stack although popped entries may be pushed back at once (no ABA), as long as fewer pops than the generation counter can count occur during one operation; the same holds when batch_pop is used concurrently.", "quantifier": "every number of threads, every client program (sequence of API calls per thread that respects the documented calling protocol) and every interleaving of the atomic memory operations, arbitrary reuse of popped entries", "why_tests_cant": "A test runs a handful of schedules on one machine; the claim ranges over all interleavings and all thread counts, and the losing window is a few instructions wide. ABA needs a pop to be preempted across an exact reuse pattern.", "anchors": ["include/ck_stack.h: ck_stack_push_mpmc, ck_stack_pop_mpmc, ck_stack_trypop_mpmc, ck_stack_batch_pop_mpmc"]}
{"id": "C18", "title": "Producer-only and consumer-only stacks keep LIFO order", "statement": "push_mpnc, push_spnc followed by single-consumer pop/batch_pop in phases yield all pushed entries exactly once; sequentially the structure is a LIFO list, and batch_pop returns the chain in LIFO order leaving the stack empty.", "quantifier": "all phase-structured histories with any number of concurrent pushers", "why_tests_cant": "A test runs a handful of schedules on one machine; the claim ranges over all interleavings and all thread counts, and the losing window is a few instructions wide.", "anchors": ["include/ck_stack.h: ck_stack_push_mpnc, ck_stack_push_spnc, ck_stack_pop_npsc, ck_stack_batch_pop_npsc, ck_stack_init"]}
{"id": "C19", "title": "Test-and-set spinlock (fas): mutual exclusion and no stuck state", "statement": "At every moment at most one thread is between a successful lock/trylock and its unlock; trylock fails only if the lock was held at that instant; from any reachable state any waiting thread can still obtain the lock once holders release; locked() reports exactly whether the lock is held.", "quantifier": "every number of threads, every client program (sequence of API calls per thread that respects the documented calling protocol) and every interleaving of the atomic memory operations", "why_tests_cant": "A test runs a handful of schedules on one machine; the claim ranges over all interleavings and all thread counts, and the losing window is a few instructions wide.", "anchors": ["include/spinlock/fas.h: ck_spinlock_fas_lock, ck_spinlock_fas_trylock, ck_spinlock_fas_unlock, ck_spinlock_fas_locked, ck_spinlock_fas_lock_eb"]}
{"id": "C20", "title": "Compare-and-swap spinlock: mutual exclusion and no stuck state", "statement": "At every moment at most one thread is between a successful lock/trylock and its unlock; trylock fails only if the lock was held at that instant; any waiting thread can obtain the lock once holders release.", "quantifier": "every number of threads, every client program (sequence of API calls per thread that respects the documented calling protocol) and every interleaving of the atomic memory operations", "why_tests_cant": "A test runs a handful of schedules on one machine; the claim ranges over all interleavings and all thread counts, and the losing window is a few instructions wide.", "anchors": ["include/spinlock/cas.h: ck_spinlock_cas_lock, ck_spinlock_cas_trylock, ck_spinlock_cas_unlock"]}
{"id": "C21", "title": "Decrement spinlock: mutual exclusion under its concurrency bound", "statement": "At every moment at most one thread is between a successful lock/trylock and its unlock; this holds although waiters keep decrementing the word, as long as the number of contending threads is below 2^32-1.", "quantifier": "every number of threads, every client program (sequence of API calls per thread that respects the documented calling protocol) and every interleaving of the atomic memory operations with fewer than 2^32-1 threads", "why_tests_cant": "A test runs a handful of schedules on one machine; the claim ranges over all interleavings and all thread counts, and the losing window is a few instructions wide. The underflow needs billions of decrements.", "anchors": ["include/spinlock/dec.h: ck_spinlock_dec_lock, ck_spinlock_dec_trylock, ck_spinlock_dec_unlock"]}
{"id": "C22", "title": "Ticket lock: mutual exclusion and first-come-first-served", "statement": "At every moment at most one thread is between a successful lock/trylock and its unlock; threads acquire in exactly the order in which their ticket-drawing atomic operation executed; trylock succeeds only when nobody holds or waits; all this despite counter wrap-around.", "quantifier": "every number of threads, every client program (sequence of API calls per thread that respects the documented calling protocol) and every interleaving of the atomic memory operations with fewer threads than the counter range (2^16 packed, 2^32 otherwise), unboundedly many acquisitions", "why_tests_cant": "A test runs a handful of schedules on one machine; the claim ranges over all interleavings and all thread counts, and the losing window is a few instructions wide. Wrap-around needs 2^16 or 2^32 acquisitions.", "anchors": ["include/spinlock/ticket.h: ck_spinlock_ticket_lock, ck_spinlock_ticket_trylock, ck_spinlock_ticket_unlock, ck_spinlock_ticket_locked"]}
{"id": "C23", "title": "Anderson array lock: mutual exclusion and first-come-first-served", "statement": "At every moment at most one thread is between a successful lock/trylock and its unlock; threads acquire in the order of slot allocation; this holds for any slot count, power of two or not, given at most that many threads; locked() reports truthfully whether the lock is held.", "quantifier": "every number of threads, every client program (sequence of API calls per thread that respects the documented calling protocol) and every interleaving of the atomic memory operations with at most `count` threads", "why_tests_cant": "A test runs a handful of schedules on one machine; the claim ranges over all interleavings and all thread counts, and the losing window is a few instructions wide.", "anchors": ["include/spinlock/anderson.h: ck_spinlock_anderson_init, ck_spinlock_anderson_lock, ck_spinlock_anderson_unlock, ck_spinlock_anderson_locked"]}
{"id": "C24", "title": "MCS lock: mutual exclusion and first-come-first-served", "statement": "At every moment at most one thread is between a successful lock/trylock and its unlock; threads acquire in the order their queue-swap executed; unlock never loses a queued successor; trylock succeeds only on a free lock.", "quantifier": "every number of threads, every client program (sequence of API calls per thread that respects the documented calling protocol) and every interleaving of the atomic memory operations, queue nodes reused after unlock", "why_tests_cant": "A test runs a handful of schedules on one machine; the claim ranges over all interleavings and all thread counts, and the losing window is a few instructions wide.", "anchors": ["include/spinlock/mcs.h: ck_spinlock_mcs_lock, ck_spinlock_mcs_trylock, ck_spinlock_mcs_unlock, ck_spinlock_mcs_locked"]}
{"id": "C25", "title": "CLH lock: mutual exclusion and first-come-first-served with node recycling", "statement": "At every moment at most one thread is between a successful lock/trylock and its unlock; threads acquire in queue-swap order, and the node handed back by unlock is no longer referenced by anyone else, so it can be reused at once.", "quantifier": "every number of threads, every client program (sequence of API calls per thread that respects the documented calling protocol) and every interleaving of the atomic memory operations", "why_tests_cant": "A test runs a handful of schedules on one machine; the claim ranges over all interleavings and all thread counts, and the losing window is a few instructions wide.", "anchors": ["include/spinlock/clh.h: ck_spinlock_clh_init, ck_spinlock_clh_lock, ck_spinlock_clh_unlock, ck_spinlock_clh_locked"]}
{"id": "C26", "title": "Hierarchical CLH lock: mutual exclusion across and within clusters", "statement": "At every moment at most one thread is between a successful lock/trylock and its unlock; within a cluster and across clusters, with queue nodes recycled by unlock.", "quantifier": "every number of threads, every client program (sequence of API calls per thread that respects the documented calling protocol) and every interleaving of the atomic memory operations, any number of clusters", "why_tests_cant": "A test runs a handful of schedules on one machine; the claim ranges over all interleavings and all thread counts, and the losing window is a few instructions wide.", "anchors": ["include/spinlock/hclh.h: ck_spinlock_hclh_init, ck_spinlock_hclh_lock, ck_spinlock_hclh_unlock"]}
{"id": "C27", "title": "Centralized read-write lock: exclusion, trylock, downgrade", "statement": "At every moment either no writer or exactly one writer and no reader is inside its critical section; a downgrade turns the writer into a reader without a moment in which another writer can enter; trylocks succeed only when permitted; no reachable state blocks forever once holders release.", "quantifier": "every number of threads, every client program (sequence of API calls per thread that respects the documented calling protocol) and every interleaving of the atomic memory operations with fewer than 2^32 readers", "why_tests_cant": "A test runs a handful of schedules on one machine; the claim ranges over all interleavings and all thread counts, and the losing window is a few instructions wide.", "anchors": ["include/ck_rwlock.h: ck_rwlock_write_lock, ck_rwlock_write_trylock, ck_rwlock_write_downgrade, ck_rwlock_write_unlock, ck_rwlock_read_lock, ck_rwlock_read_trylock, ck_rwlock_read_unlock"]}
{"id": "C28", "title": "Recursive read-write lock: owner may re-enter, others excluded until fully released", "statement": "A thread holding the recursive write lock may re-acquire it; other writers and readers are excluded until it has released as many times as it acquired.", "quantifier": "every number of threads, every client program (sequence of API calls per thread that respects the documented calling protocol) and every interleaving of the atomic memory operations with non-zero thread identifiers", "why_tests_cant": "A test runs a handful of schedules on one machine; the claim ranges over all interleavings and all thread counts, and the losing window is a few instructions wide.", "anchors": ["include/ck_rwlock.h: ck_rwlock_recursive_write_lock, ck_rwlock_recursive_write_trylock, ck_rwlock_recursive_write_unlock, ck_rwlock_recursive_read_lock"]}
{"id": "C29", "title": "Single-writer read-write lock: exclusion including latch and downgrade", "statement": "At every moment either no writer or exactly one writer and no reader is inside its critical section; with one writer thread; while latched no reader is inside and none enters until unlatched, and readers that were waiting during the latch do not corrupt the reader count.", "quantifier": "every number of threads, every client program (sequence of API calls per thread that respects the documented calling protocol) and every interleaving of the atomic memory operations with one writer", "why_tests_cant": "A test runs a handful of schedules on one machine; the claim ranges over all interleavings and all thread counts, and the losing window is a few instructions wide.", "anchors": ["include/ck_swlock.h: ck_swlock_write_lock, ck_swlock_write_trylock, ck_swlock_write_latch, ck_swlock_write_unlatch, ck_swlock_write_downgrade, ck_swlock_read_lock, ck_swlock_read_trylock, ck_swlock_read_unlock"]}
{"id": "C30", "title": "Phase-fair read-write lock: exclusion and writer order", "statement": "At every moment either no writer or exactly one writer and no reader is inside its critical section; writers enter in ticket order; readers arriving in a phase wait at most for that write phase.", "quantifier": "every number of threads, every client program (sequence of API calls per thread that respects the documented calling protocol) and every interleaving of the atomic memory operations with fewer than 2^24 concurrent readers and 2^32 writers", "why_tests_cant": "A test runs a handful of schedules on one machine; the claim ranges over all interleavings and all thread counts, and the losing window is a few instructions wide.", "anchors": ["include/ck_pflock.h: ck_pflock_write_lock, ck_pflock_write_unlock, ck_pflock_read_lock, ck_pflock_read_unlock"]}
{"id": "C31", "title": "Task-fair read-write lock: exclusion and arrival order", "statement": "At every moment either no writer or exactly one writer and no reader is inside its critical section; requests are granted in arrival order (consecutive readers together), despite the wrapping packed counters.", "quantifier": "every number of threads, every client program (sequence of API calls per thread that respects the documented calling protocol) and every interleaving of the atomic memory operations with fewer than 2^15 outstanding requests", "why_tests_cant": "A test runs a handful of schedules on one machine; the claim ranges over all interleavings and all thread counts, and the losing window is a few instructions wide.", "anchors": ["include/ck_tflock.h: ck_tflock_ticket_write_lock, ck_tflock_ticket_write_unlock, ck_tflock_ticket_read_lock, ck_tflock_ticket_read_unlock, ck_tflock_ticket_fca_32"]}
{"id": "C32", "title": "Byte lock: exclusion between slotted readers, unslotted readers and the writer", "statement": "At every moment either no writer or exactly one writer and no reader is inside its critical section; for any mix of slotted and unslotted participants, including a slotted writer turning into a reader.", "quantifier": "every number of threads, every client program (sequence of API calls per thread that respects the documented calling protocol) and every interleaving of the atomic memory operations", "why_tests_cant": "A test runs a handful of schedules on one machine; the claim ranges over all interleavings and all thread counts, and the losing window is a few instructions wide.", "anchors": ["include/ck_bytelock.h: ck_bytelock_write_lock, ck_bytelock_write_unlock, ck_bytelock_read_lock, ck_bytelock_read_unlock"]}
{"id": "C33", "title": "Big-reader lock: exclusion with registered readers", "statement": "At every moment either no writer or exactly one writer and no reader is inside its critical section; for every reader registered in the lock, with recursion of read sections and registration/unregistration concurrent with writers.", "quantifier": "every number of threads, every client program (sequence of API calls per thread that respects the documented calling protocol) and every interleaving of the atomic memory operations", "why_tests_cant": "A test runs a handful of schedules on one machine; the claim ranges over all interleavings and all thread counts, and the losing window is a few instructions wide.", "anchors": ["include/ck_brlock.h: ck_brlock_write_lock, ck_brlock_write_unlock, ck_brlock_write_trylock, ck_brlock_read_register, ck_brlock_read_unregister, ck_brlock_read_lock, ck_brlock_read_trylock, ck_brlock_read_unlock"]}
{"id": "C34", "title": "Cohort lock: mutual exclusion over all cohorts", "statement": "At every moment at most one thread is between a successful lock/trylock and its unlock; across all cohorts sharing a global lock, for any correct local and global lock, although the global lock is passed between threads of a cohort.", "quantifier": "every number of threads, every client program (sequence of API calls per thread that respects the documented calling protocol) and every interleaving of the atomic memory operations, any number of cohorts", "why_tests_cant": "A test runs a handful of schedules on one machine; the claim ranges over all interleavings and all thread counts, and the losing window is a few instructions wide.", "anchors": ["include/ck_cohort.h: CK_COHORT_LOCK, CK_COHORT_UNLOCK"]}
{"id": "C35", "title": "Cohort trylock and locked keep the lock usable", "statement": "A failing trylock has no lasting effect: when no thread is inside lock/unlock/trylock and nobody holds the lock, the global lock is free; locked() queries the local lock with the local predicate and the global with the global one.", "quantifier": "every number of threads, every client program (sequence of API calls per thread that respects the documented calling protocol) and every interleaving of the atomic memory operations", "why_tests_cant": "A test runs a handful of schedules on one machine; the claim ranges over all interleavings and all thread counts, and the losing window is a few instructions wide.", "anchors": ["include/ck_cohort.h: CK_COHORT_TRYLOCK, CK_COHORT_LOCKED, CK_COHORT_UNLOCK"]}
{"id": "C36", "title": "Reader-writer cohort locks: exclusion in all three preference modes", "statement": "At every moment either no writer or exactly one writer and no reader is inside its critical section; for the writer-preference, reader-preference and neutral variants.", "quantifier": "every number of threads, every client program (sequence of API calls per thread that respects the documented calling protocol) and every interleaving of the atomic memory operations, any number of cohorts", "why_tests_cant": "A test runs a handful of schedules on one machine; the claim ranges over all interleavings and all thread counts, and the losing window is a few instructions wide.", "anchors": ["include/ck_rwcohort.h: CK_RWCOHORT_WP_*, CK_RWCOHORT_RP_*, CK_RWCOHORT_NEUTRAL_*"]}
{"id": "C37", "title": "Sequence counter readers accept only consistent snapshots", "statement": "If a read section is accepted (retry returns false), every value read in it was current at one single moment of the section (no write section overlapped), provided fewer than 2^31 write sections occur during one read section.", "quantifier": "all interleavings of one writer at a time and any number of readers, arbitrary protected data size, counter wrap-around included", "why_tests_cant": "A test runs a handful of schedules on one machine; the claim ranges over all interleavings and all thread counts, and the losing window is a few instructions wide.", "anchors": ["include/ck_sequence.h: ck_sequence_read_begin, ck_sequence_read_retry, ck_sequence_write_begin, ck_sequence_write_end, CK_SEQUENCE_READ"]}
{"id": "C38", "title": "Centralized barrier separates episodes", "statement": "No participant leaves its k-th call before all n participants have entered their k-th call, for every k; and no reachable state in which all have entered leaves someone unable to proceed.", "quantifier": "every number of threads, every client program (sequence of API calls per thread that respects the documented calling protocol) and every interleaving of the atomic memory operations, any n>=1, unboundedly many episodes", "why_tests_cant": "A test runs a handful of schedules on one machine; the claim ranges over all interleavings and all thread counts, and the losing window is a few instructions wide.", "anchors": ["src/ck_barrier_centralized.c: ck_barrier_centralized"]}
{"id": "C39", "title": "Dissemination barrier separates episodes", "statement": "No participant leaves its k-th call before all n participants have entered their k-th call, for every k; and no reachable state in which all have entered leaves someone unable to proceed.", "quantifier": "every number of threads, every client program (sequence of API calls per thread that respects the documented calling protocol) and every interleaving of the atomic memory operations, any n>=1, unboundedly many episodes", "why_tests_cant": "A test runs a handful of schedules on one machine; the claim ranges over all interleavings and all thread counts, and the losing window is a few instructions wide.", "anchors": ["src/ck_barrier_dissemination.c: ck_barrier_dissemination_init, ck_barrier_dissemination_subscribe, ck_barrier_dissemination"]}
{"id": "C40", "title": "MCS tree barrier separates episodes", "statement": "No participant leaves its k-th call before all n participants have entered their k-th call, for every k; and no reachable state in which all have entered leaves someone unable to proceed.", "quantifier": "every number of threads, every client program (sequence of API calls per thread that respects the documented calling protocol) and every interleaving of the atomic memory operations, any n>=1, unboundedly many episodes", "why_tests_cant": "A test runs a handful of schedules on one machine; the claim ranges over all interleavings and all thread counts, and the losing window is a few instructions wide.", "anchors": ["src/ck_barrier_mcs.c: ck_barrier_mcs_init, ck_barrier_mcs_subscribe, ck_barrier_mcs"]}
{"id": "C41", "title": "Tournament barrier separates episodes and initialises in bounds", "statement": "No participant leaves its k-th call before all n participants have entered their k-th call, for every k; and no reachable state in which all have entered leaves someone unable to proceed. Initialisation reads only initialised memory and stays inside the supplied arrays.", "quantifier": "every number of threads, every client program (sequence of API calls per thread that respects the documented calling protocol) and every interleaving of the atomic memory operations, any n>=1", "why_tests_cant": "A test runs a handful of schedules on one machine; the claim ranges over all interleavings and all thread counts, and the losing window is a few instructions wide.", "anchors": ["src/ck_barrier_tournament.c: ck_barrier_tournament_init, ck_barrier_tournament_subscribe, ck_barrier_tournament"]}
{"id": "C42", "title": "Combining barrier separates episodes", "statement": "No participant leaves its k-th call before all n participants have entered their k-th call, for every k; and no reachable state in which all have entered leaves someone unable to proceed.", "quantifier": "every number of threads, every client program (sequence of API calls per thread that respects the documented calling protocol) and every interleaving of the atomic memory operations, any shape of the group tree", "why_tests_cant": "A test runs a handful of schedules on one machine; the claim ranges over all interleavings and all thread counts, and the losing window is a few instructions wide.", "anchors": ["src/ck_barrier_combining.c: ck_barrier_combining_init, ck_barrier_combining_group_init, ck_barrier_combining, ck_barrier_combining_aux"]}
{"id": "C43", "title": "Epoch synchronize waits for every earlier read section", "statement": "When synchronize returns, every read section that was active when it was called has ended.", "quantifier": "every number of threads, every client program (sequence of API calls per thread that respects the documented calling protocol) and every interleaving of the atomic memory operations, with nested sections and any number of concurrent synchronize calls", "why_tests_cant": "A test runs a handful of schedules on one machine; the claim ranges over all interleavings and all thread counts, and the losing window is a few instructions wide.", "anchors": ["src/ck_epoch.c: ck_epoch_synchronize_wait, ck_epoch_scan", "include/ck_epoch.h: ck_epoch_begin, ck_epoch_end"]}
{"id": "C44", "title": "Epoch deferred callbacks run only after a grace period", "statement": "A callback deferred with ck_epoch_call by a record's owner and executed by poll, barrier or reclaim-after-synchronize of that record runs only after every read section active at the time of the call has ended.", "quantifier": "every number of threads, every client program (sequence of API calls per thread that respects the documented calling protocol) and every interleaving of the atomic memory operations", "why_tests_cant": "A test runs a handful of schedules on one machine; the claim ranges over all interleavings and all thread counts, and the losing window is a few instructions wide.", "anchors": ["include/ck_epoch.h: ck_epoch_call", "src/ck_epoch.c: ck_epoch_poll_deferred, ck_epoch_dispatch, ck_epoch_barrier, ck_epoch_reclaim"]}
{"id": "C45", "title": "Epoch deferred callbacks run exactly once and are never lost", "statement": "Every deferred callback is run at most once; after a barrier by the record's owner all callbacks deferred earlier on it have run; the pending counter equals the number of callbacks not yet run; the peak counter is at least the pending counter at any dispatch.", "quantifier": "all histories of call, poll, barrier, reclaim", "why_tests_cant": "Depends on epoch residues over arbitrary histories.", "anchors": ["src/ck_epoch.c: ck_epoch_dispatch, ck_epoch_reclaim, ck_epoch_poll_deferred, ck_epoch_barrier", "include/ck_epoch.h: ck_epoch_call"]}
{"id": "C46", "title": "Epoch sections protect across overlapping begin/end pairs", "statement": "For every record and every nesting of section objects and plain begin/end, the record never advertises an epoch newer than that of its oldest active section, and end returns true iff no section of the caller remains.", "quantifier": "all well-formed begin/end histories with section objects and without", "why_tests_cant": "Needs particular overlaps of sections with epoch changes.", "anchors": ["src/ck_epoch.c: _ck_epoch_addref, _ck_epoch_delref", "include/ck_epoch.h: ck_epoch_begin, ck_epoch_end"]}
{"id": "C47", "title": "Strict deferral on shared records respects the grace period", "statement": "A callback deferred with ck_epoch_call_strict on a record that another thread polls concurrently runs only after every read section active at the time of the call has ended.", "quantifier": "every number of threads, every client program (sequence of API calls per thread that respects the documented calling protocol) and every interleaving of the atomic memory operations", "why_tests_cant": "A test runs a handful of schedules on one machine; the claim ranges over all interleavings and all thread counts, and the losing window is a few instructions wide.", "anchors": ["include/ck_epoch.h: ck_epoch_call_strict", "src/ck_epoch.c: ck_epoch_poll_deferred, ck_epoch_dispatch"]}
{"id": "C48", "title": "Hazard pointers: a protected object is never destroyed", "statement": "If a thread publishes a pointer in a hazard slot and then observes the object still reachable (not yet retired), the object is not destroyed before the thread overwrites or clears that slot.", "quantifier": "every number of threads, every client program (sequence of API calls per thread that respects the documented calling protocol) and every interleaving of the atomic memory operations, any number of records, slots and retired objects, any cache limit", "why_tests_cant": "A test runs a handful of schedules on one machine; the claim ranges over all interleavings and all thread counts, and the losing window is a few instructions wide.", "anchors": ["src/ck_hp.c: ck_hp_reclaim, ck_hp_member_cache, ck_hp_member_scan", "include/ck_hp.h: ck_hp_set, ck_hp_set_fence"]}
{"id": "C49", "title": "Hazard pointers: each retired object is destroyed exactly once", "statement": "Every object retired or freed through a record is destroyed at most once, is either destroyed or still pending, and after purge returns nothing is pending.", "quantifier": "all histories of retire, free, reclaim, purge and hazard changes", "why_tests_cant": "Unbounded pending lists and hazard sets.", "anchors": ["src/ck_hp.c: ck_hp_retire, ck_hp_free, ck_hp_reclaim, ck_hp_purge"]}
{"id": "C50", "title": "Hazard-pointer stack is a linearizable LIFO with safe reclamation", "statement": "Push and pop with hazard pointers are linearizable to a LIFO stack and never touch a destroyed entry although popped entries are retired and may be reused after destruction.", "quantifier": "every number of threads, every client program (sequence of API calls per thread that respects the documented calling protocol) and every interleaving of the atomic memory operations", "why_tests_cant": "A test runs a handful of schedules on one machine; the claim ranges over all interleavings and all thread counts, and the losing window is a few instructions wide.", "anchors": ["include/ck_hp_stack.h: ck_hp_stack_push_mpmc, ck_hp_stack_pop_mpmc, ck_hp_stack_trypop_mpmc"]}
{"id": "C51", "title": "Hazard-pointer FIFO is safe under reclamation", "statement": "Enqueue, dequeue, tryenqueue and trydequeue never dereference a null or destroyed entry and deliver elements in FIFO order exactly once.", "quantifier": "every number of threads, every client program (sequence of API calls per thread that respects the documented calling protocol) and every interleaving of the atomic memory operations", "why_tests_cant": "A test runs a handful of schedules on one machine; the claim ranges over all interleavings and all thread counts, and the losing window is a few instructions wide.", "anchors": ["include/ck_hp_fifo.h: ck_hp_fifo_mpmc_enqueue, ck_hp_fifo_mpmc_tryenqueue, ck_hp_fifo_mpmc_dequeue, ck_hp_fifo_mpmc_trydequeue"]}
{"id": "C52", "title": "Hash set behaves as a set under every mutation API", "statement": "For any hash and comparison functions (comparison an equivalence that hashing respects), put, put_unique (when unique), set, fas, remove, get and apply return the result of, and have the effect of, the same operation on an abstract set of representatives.", "quantifier": "all hash functions (including constant ones), all histories, all modes with and without deletion support", "why_tests_cant": "Probe-sequence, tombstone and bound interactions depend on adversarial hash collisions over long histories.", "anchors": ["src/ck_hs.c: ck_hs_put, ck_hs_put_unique, ck_hs_set, ck_hs_fas, ck_hs_get, ck_hs_remove, ck_hs_apply, ck_hs_map_probe"]}
{"id": "C53", "title": "Hash set resizing and garbage collection preserve contents", "statement": "grow, rebuild, gc and reset leave exactly the same members (none for reset), or report failure and change nothing.", "quantifier": "all reachable tables, all allocation failures, all target capacities", "why_tests_cant": "Every arrangement of collisions must survive re-insertion.", "anchors": ["src/ck_hs.c: ck_hs_grow, ck_hs_rebuild, ck_hs_gc, ck_hs_reset, ck_hs_reset_size"]}
{"id": "C54", "title": "Hash set iteration and counting are exact", "statement": "Iteration yields each member exactly once and nothing else; count is the number of members; stat reports the number of entries and of tombstones.", "quantifier": "all reachable tables", "why_tests_cant": "Depends on slot patterns.", "anchors": ["src/ck_hs.c: ck_hs_next, ck_hs_count, ck_hs_stat, ck_hs_iterator_init"]}
{"id": "C55", "title": "Hash set concurrent readers never miss a stable member", "statement": "With one writer and any number of concurrent readers, a get for a key present during the whole call finds it, and a get for a key absent during the whole call returns nothing, even while the writer relocates other entries.", "quantifier": "every number of threads, every client program (sequence of API calls per thread that respects the documented calling protocol) and every interleaving of the atomic memory operations with one writer", "why_tests_cant": "A test runs a handful of schedules on one machine; the claim ranges over all interleavings and all thread counts, and the losing window is a few instructions wide.", "anchors": ["src/ck_hs.c: ck_hs_get, ck_hs_set, ck_hs_put, ck_hs_remove, ck_hs_map_signal"]}
{"id": "C56", "title": "Hash table behaves as a finite map", "statement": "put inserts iff the key is absent and otherwise fails leaving the table unchanged; set inserts or replaces returning the previous pair; get returns the current value; remove deletes and returns the pair.", "quantifier": "all hash functions, histories, key modes (direct and bytestring)", "why_tests_cant": "The failing put needs a tombstone to precede the existing key on its probe sequence.", "anchors": ["src/ck_ht.c: ck_ht_put_spmc, ck_ht_set_spmc, ck_ht_get_spmc, ck_ht_remove_spmc, ck_ht_map_probe_wr, ck_ht_map_probe_rd"]}
{"id": "C57", "title": "Hash table resizing, iteration and counting are exact", "statement": "grow, gc and reset preserve the mapping (or clear it for reset); iteration yields each entry once; count is the number of entries.", "quantifier": "all reachable tables", "why_tests_cant": "Depends on collision arrangements.", "anchors": ["src/ck_ht.c: ck_ht_grow_spmc, ck_ht_gc, ck_ht_reset_spmc, ck_ht_next, ck_ht_count"]}
{"id": "C58", "title": "Hash table readers never observe a key paired with another key's value", "statement": "With one writer and concurrent readers, a successful get(k) returns a value that was associated with k at some moment of the call.", "quantifier": "every number of threads, every client program (sequence of API calls per thread that respects the documented calling protocol) and every interleaving of the atomic memory operations with one writer", "why_tests_cant": "A test runs a handful of schedules on one machine; the claim ranges over all interleavings and all thread counts, and the losing window is a few instructions wide.", "anchors": ["src/ck_ht.c: ck_ht_get_spmc, ck_ht_set_spmc, ck_ht_remove_spmc, ck_ht_map_probe_rd"]}
{"id": "C59", "title": "Robin Hood hash set behaves as a set", "statement": "put, put_unique, set, fas, remove, get, apply have the effect and result of the abstract set operation and count is the number of members.", "quantifier": "all hash functions and histories", "why_tests_cant": "Displacement chains and backward shifts depend on adversarial collisions.", "anchors": ["src/ck_rhs.c: ck_rhs_put, ck_rhs_set, ck_rhs_fas, ck_rhs_get, ck_rhs_remove, ck_rhs_apply, ck_rhs_count"]}
{"id": "C60", "title": "Intrusive lists refine sequences", "statement": "Every SLIST, STAILQ and LIST operation (insert head/tail/before/after, remove, remove head/after, concat, swap, move) transforms the abstract sequence of elements as its name says and leaves elements outside the lists untouched.", "quantifier": "all lists, all positions, all histories", "why_tests_cant": "Pointer structures of every shape.", "anchors": ["include/ck_queue.h: CK_SLIST_*, CK_STAILQ_*, CK_LIST_*"]}
{"id": "C61", "title": "Intrusive list readers concurrent with one writer are safe", "statement": "A reader traversing the list while one writer inserts and removes (removed nodes keep their links, are not reused) visits every element that is in the list throughout the traversal, visits only elements that were in the list, and its traversal ends once the writer stops.", "quantifier": "all writer histories interleaved at every memory access", "why_tests_cant": "A test runs a handful of schedules on one machine; the claim ranges over all interleavings and all thread counts, and the losing window is a few instructions wide.", "anchors": ["include/ck_queue.h: CK_LIST_FOREACH, CK_LIST_INSERT_AFTER, CK_LIST_INSERT_BEFORE, CK_LIST_INSERT_HEAD, CK_LIST_REMOVE, CK_SLIST_FOREACH, CK_STAILQ_FOREACH"]}
{"id": "C62", "title": "Event counts count", "statement": "value returns the initial value plus all increments modulo 2^31 (32-bit) or 2^63 (64-bit), whatever waiters set the flag; add returns the value before; the wait flag never leaks into the value.", "quantifier": "all histories, single and multi producer modes, wrap-around", "why_tests_cant": "Wrap-around needs 2^31 operations.", "anchors": ["include/ck_ec.h: ck_ec32_inc, ck_ec32_add, ck_ec32_value, ck_ec64_inc, ck_ec64_add, ck_ec64_value"]}
{"id": "C63", "title": "Event counts do not lose wake-ups", "statement": "If a waiter is going to sleep on old value v (flagged), then any increment that changes the value after the flag was set issues a wake, and a waiter never sleeps on a word that has already changed; wait returns success only if the value changed.", "quantifier": "every number of threads, every client program (sequence of API calls per thread that respects the documented calling protocol) and every interleaving of the atomic memory operations", "why_tests_cant": "A test runs a handful of schedules on one machine; the claim ranges over all interleavings and all thread counts, and the losing window is a few instructions wide.", "anchors": ["include/ck_ec.h: ck_ec32_inc, ck_ec32_wait", "src/ck_ec.c: ck_ec32_wait_slow, ck_ec32_upgrade, ck_ec32_wake, ck_ec32_wait_slow_once"]}
{"id": "C64", "title": "Event count time arithmetic saturates and compares correctly", "statement": "Adding durations to timespecs gives the exact normalised sum when representable, the documented maximum otherwise; comparison is the order of the represented instants; deadline checks answer exactly whether the deadline passed.", "quantifier": "all normalised timespecs and durations", "why_tests_cant": "Edge cases at 2^63-1 seconds.", "anchors": ["src/ck_ec_timeutil.h: timespec_add_ns, timespec_add, timespec_cmp, check_deadline, wait_time_scale"]}
{"id": "C65", "title": "Event count exponential backoff terminates", "statement": "For every accepted mode configuration (busy loop count, initial wait, scale factor, shift count) one round of the backoff computation ends.", "quantifier": "all configurations and elapsed times", "why_tests_cant": "Degenerate configurations are not tested.", "anchors": ["src/ck_ec.c: exponential_backoff", "include/ck_ec.h: struct ck_ec_ops"]}
{"id": "C66", "title": "Cohort locks pass locally up to the limit", "statement": "From the moment a cohort takes the global lock until it releases it, the lock is acquired at most max(1, local pass limit) times, only by members of that cohort; unlock hands the lock over inside the cohort exactly when a member is counted as waiting and the limit has not been reached.", "quantifier": "every number of threads and cohorts, every pass limit, every client program and every interleaving of the atomic memory operations", "why_tests_cant": "The count must be right after every history, including histories that reset and wrap it; a test sees a few hand-overs.", "anchors": ["include/ck_cohort.h: CK_COHORT_LOCK, CK_COHORT_UNLOCK, CK_COHORT_TRYLOCK"]}
{"id": "C67", "title": "Portable atomic fallbacks are atomic", "statement": "The operations of ck_pr.h that are built from load and compare-and-swap (add, sub, and, or, xor, btc, btr, bts, inc, dec and their zero tests, not, neg, faa, fas) take effect at one moment of the call with the effect and result of the named atomic operation on words of the given width, wrapping included; they never run into undefined behaviour and never wait for another thread.", "quantifier": "every operand width and type suffix (except double), every initial value, every number of threads, every sequence of calls per thread and every interleaving of the primitive loads, stores and compare-and-swaps", "why_tests_cant": "The lost-update window between load and compare-and-swap is a few instructions wide, and the wrong results are confined to single values out of 2^32 or 2^64.", "anchors": ["include/ck_pr.h: CK_PR_BIN, CK_PR_BTX, CK_PR_UNARY, CK_PR_UNARY_Z, CK_PR_N, CK_PR_N_Z, CK_PR_FAA, CK_PR_FAS and their instances"]}
{"id": "C68", "title": "Rings with one producer or one consumer are linearizable FIFOs", "statement": "In every interleaving of one producer with many consumers (spmc) or many producers with one consumer (mpsc), ck_ring is linearizable to a FIFO of capacity 2^k-1; an enqueue or reserve fails only when all slots were taken when it looked, a dequeue only when the ring was empty, reported sizes are the occupancy at the look, and at quiescence ck_ring_size is the number of entries.", "quantifier": "all sizes 2^k with k<=31, all numbers of threads on the many side, all interleavings in which fewer than 2^32 reservations or dequeues occur during one call", "why_tests_cant": "The single-sided functions read their own cursor without synchronisation and publish with a plain store; whether they compose with the compare-and-swap functions of the other side depends on the interleaving and on cursor wrap.", "anchors": ["include/ck_ring.h:134-250", "include/ck_ring.h:412-471", "include/ck_ring.h:612-745"]}
{"id": "C69", "title": "Single-producer event counts survive store buffers", "statement": "On x86-TSO, with the producer's plain read-modify-write split by store buffering, no update of a single-producer event count is lost or doubled, wait reports success only with cause, and, provided no instruction stays in flight for as long as the final wait time, no waiter sleeps without a deadline on a value that has changed with nobody on the way to wake it.", "quantifier": "all thread counts, all interleavings and store buffer delays, both word widths, all bounds D < S", "why_tests_cant": "The races are between a store buffer entry and a flag flip, within nanoseconds and once in more than a second of preemption.", "anchors": ["include/ck_ec.h:150-245", "include/ck_ec.h:624-735", "include/ck_ec.h:806-895", "src/ck_ec.c:31-60", "src/ck_ec.c:125-195", "src/ck_ec.c:262-375"]}
{"id": "C70", "title": "Spinlocks protect data under store buffering", "statement": "On x86-TSO, with the fences the library compiles to nothing there, one thread at a time is inside a lock, a release becomes visible before the next thread enters, trylock and locked answer truthfully relative to that, and everything the holder reads is the last value written inside, by whichever thread; a waiting thread can get a lock that nobody holds once the stores in flight have arrived.", "quantifier": "all thread counts, all interleavings and store buffer delays, all data accesses inside the lock", "why_tests_cant": "The window is the life of a store buffer entry; a missing fence shows up once in millions of acquisitions or only on another processor.", "anchors": ["include/spinlock/fas.h:49-111", "include/spinlock/cas.h:49-108", "include/ck_pr.h:144-166"]}
{"id": "C71", "title": "Epoch reclamation survives store buffers", "statement": "On x86-TSO, whatever the store buffers do, no object unlinked by its owner and handed to ck_epoch_call, ck_epoch_synchronize or ck_epoch_barrier is destroyed while a read section that obtained it is open, and no section obtains an object that has been destroyed.", "quantifier": "all record lists, all pointers and ways of unlinking, all interleavings and store buffer delays, fewer than 2^32 - 20 advances of the epoch", "why_tests_cant": "It takes an unlinking store that stays in its buffer while two grace periods pass.", "anchors": ["include/ck_epoch.h:126-186", "include/ck_epoch.h:188-208", "src/ck_epoch.c:320-394", "src/ck_epoch.c:424-543", "src/ck_epoch.c:566-616"]}
{"id": "C72", "title": "Reader-writer locks protect data under store buffering", "statement": "On x86-TSO, with the fences the library compiles to nothing there, ck_rwlock, ck_brlock and ck_bytelock never let a writer in beside a reader or another writer, and whoever is inside reads the values last written inside, by whichever thread; downgrades and byte lock upgrades included.", "quantifier": "all numbers of threads below 2^32, all reader lists, all interleavings and store buffer delays, all data accesses inside the locks", "why_tests_cant": "The danger is a reader that checks the writer word while its own announcement is still in its store buffer, a window of a few nanoseconds.", "anchors": ["include/ck_rwlock.h:53-202", "include/ck_brlock.h:74-277", "include/ck_bytelock.h:81-194", "include/ck_pr.h:144-166"]}
{"id": "C73", "title": "Hazard pointers survive store buffers", "statement": "On x86-TSO, whatever the store buffers do, an object unlinked by its owner and handed to ck_hp_retire or ck_hp_free is not destroyed while a reader that protected it with ck_hp_set_fence and validated its pointer has not cleared the hazard, no reader obtains a destroyed object, and nothing is destroyed twice, also when addresses are used again.", "quantifier": "all record lists and degrees, all cache sizes, all pointers, interleavings and store buffer delays", "why_tests_cant": "It takes an unlinking store that stays in its buffer during a whole scan of the hazards, or a hazard that stays in the reader's.", "anchors": ["include/ck_hp.h:75-110", "src/ck_hp.c:164-291", "src/ck_hp.c:293-348"]}
{"id": "C74", "title": "The single-producer single-consumer ring survives store buffers", "statement": "On x86-TSO, whatever the store buffers do and in whatever order memcpy copies words, ck_ring_enqueue_spsc and ck_ring_dequeue_spsc on a ring of 2^k slots of any entry size return every entry unchanged, in order and once; dequeue fails only if no entry has arrived; at most 2^k - 1 entries are in the ring; enqueue fails only if it observed that many; the reported size is what it observed; and cursors may wrap.", "quantifier": "all ring sizes and entry sizes, all entries, unbounded executions, interleavings and store buffer delays", "why_tests_cant": "A torn or early entry needs a store that is delayed past a cursor, and cursor wrap needs 2^32 operations.", "anchors": ["include/ck_ring.h:173-250", "include/ck_ring.h:481-536"]}
{"id": "C75", "title": "Sequence counters survive store buffers", "statement": "On x86-TSO, whatever the store buffers do, a section between ck_sequence_read_begin and a ck_sequence_read_retry that returned false read only values of one complete update, the newest visible one (or the reader's own), unless 2^31 updates began in it; read_retry returns true only if an update by another thread became visible in part since read_begin; and once the buffers have drained complete updates are visible.", "quantifier": "all data, readers, writers taking turns under a lock, numbers of updates, interleavings and store buffer delays", "why_tests_cant": "A torn section needs a particular order of buffered stores against the reader's loads; a full wrap needs 2^31 updates in one section.", "anchors": ["include/ck_sequence.h:49-123"]}
{"id": "C76", "title": "Robin Hood hash set concurrent readers never miss a stable member", "statement": "ck_rhs_get that runs concurrently with one writer finds every key that is a member during the whole call (short of 2^32 relocations during it), and returns an object only if it is the key looked for and was a member at some moment of the call.", "quantifier": "all keys, hash and comparison functions, modes, capacities, sequences of writer operations, numbers of readers and interleavings of single loads and stores", "why_tests_cant": "A reader has to be between two probes while the writer shifts one entry; in the regressions the readers' tables are large and hashes rarely collide.", "anchors": ["src/ck_rhs.c:1398-1426", "src/ck_rhs.c:905-1076", "src/ck_rhs.c:53-56"]}
{"id": "C77", "title": "Queue locks protect data and keep their order under store buffering", "statement": "On x86-TSO, with the fences the library compiles to nothing there, the ticket, CLH, MCS and Anderson locks let one thread at a time in, in the order of the requests; a release becomes visible before the next thread enters, although the releasing thread may already be reusing its node; trylock and locked answer truthfully relative to that; everything the holder reads is the last value written inside; and a thread whose request is queued gets the lock without any further request once those before it leave and the stores in flight arrive.", "quantifier": "all thread counts (fewer than tickets or slots where the lock needs it), all interleavings and store buffer delays, all data accesses inside the lock", "why_tests_cant": "A node is recycled while the release stored before is still in the store buffer; the window is a few cycles and x86 machines in continuous integration rarely show it.", "anchors": ["include/spinlock/ticket.h:77-285", "include/spinlock/clh.h:45-120", "include/spinlock/mcs.h:49-155", "include/spinlock/anderson.h:56-165", "include/ck_pr.h:144-166"]}
{"id": "C78", "title": "Elided critical sections are indistinguishable from locked ones", "statement": "On x86-TSO with restricted transactional memory, critical sections of a ck_spinlock entered through the lock elision wrappers (best effort, adaptive and trylock), whether their transactions commit or abort and fall back to the lock, mixed with direct uses of the lock, behave as if each had taken the lock: one thread at a time is inside and reads return the last values written inside; unlock ends the transaction exactly if lock had begun one that still runs. Without transactional memory the wrappers do the same by calling the lock functions.", "quantifier": "all thread counts, configurations, statistics, reasons and moments of aborts, interleavings, store buffer delays and data accesses", "why_tests_cant": "Transactional memory is absent or disabled on most machines, and an abort at a particular instruction cannot be arranged.", "anchors": ["include/ck_elide.h:143-295", "include/spinlock/fas.h:72-116", "include/spinlock/cas.h:72-116", "include/gcc/x86_64/ck_pr_rtm.h:55-107"]}
{"id": "C79", "title": "Adaptive elision follows its configuration", "statement": "A call of lock_adaptive whose transaction aborts because the lock is busy spins at most retry_busy times, one that aborts by a conflict retries at most retry_conflict times, and a call that has to take the lock makes the next skip_busy, skip_other or skip_conflict calls (or, if no retry is advised, 65535) take the lock without eliding, after which elision is attempted again.", "quantifier": "all configurations, statistics and sequences of transaction outcomes", "why_tests_cant": "Aborts are decided by the processor; the regressions only measure throughput.", "anchors": ["include/ck_elide.h:49-132", "include/ck_elide.h:143-206"]}
{"id": "C80", "title": "Elided reader-writer sections are indistinguishable from locked ones", "statement": "On x86-TSO with restricted transactional memory, read and write sections of ck_rwlock entered through the lock elision wrappers, whether their transactions commit or abort and fall back, mixed with direct uses of the lock, keep writers alone and let everyone inside read the last values written; and unlock ends the transaction that lock has begun, so that the section's work is not discarded later.", "quantifier": "all thread counts, configurations, statistics, reasons and moments of aborts, interleavings, store buffer delays and data accesses", "why_tests_cant": "The regressions run without transactional memory on most machines, and an unlock that leaves its transaction open changes no result: it only makes work that was reported done be undone and repeated.", "anchors": ["include/ck_rwlock.h:53-206", "include/ck_elide.h:143-243", "doc/ck_elide:86-112"]}
{"id": "C81", "title": "Non-blocking structures make the documented progress", "statement": "Between any reachable state and a later one, the steps a thread spends in ck_stack and ck_fifo_mpmc operations, in ck_hp_stack operations and in ck_ring dequeue for many consumers are bounded by a constant, plus a constant per call it begins, plus a constant per operation of any thread that takes effect meanwhile (lock-freedom); the steps in the try variants, in ck_ring enqueue for one producer and in ck_ring dequeue for one consumer are bounded by a constant plus a constant per call alone (wait-freedom).", "quantifier": "all thread counts, schedules, call sequences and capacities", "why_tests_cant": "A retry loop that can run forever under an unlucky schedule, for instance one that does not reload what it compares, terminates in every test whose scheduler lets it.", "anchors": ["README.md:103", "README.md:118", "include/ck_stack.h", "include/ck_fifo.h:205-456", "include/ck_hp_stack.h", "include/ck_hp_fifo.h", "include/ck_ring.h:134-470", "doc/ck_ring_enqueue_spsc:62", "doc/ck_ring_dequeue_spsc:65", "doc/ck_ring_enqueue_spmc:64", "doc/ck_ring_dequeue_spmc:67"]}
{"id": "C82", "title": "Portable bit-scan fallbacks compute what they stand in for", "statement": "The fallbacks ck_cc_ffs, ck_cc_ffsl and ck_cc_ffsll return one plus the position of the lowest set bit (0 for 0), ck_cc_ctz the position of the lowest set bit (0 for 0) and ck_cc_popcount the number of set bits; every loop ends within as many iterations as the word has bits.", "quantifier": "every word of every width up to 64 bits", "why_tests_cant": "2^64 inputs; and on compilers with builtins the fallbacks are never compiled.", "anchors": ["include/ck_cc.h:110-163"]}
{"id": "C83", "title": "Hash table readers survive the writer's store buffer", "statement": "On x86-TSO, where the writer's stores wait in a FIFO buffer and its operations run ahead of memory, lookups in ck_hs, ck_ht and ck_rhs satisfy the guarantees of C55, C58 and C76 with respect to the operations as they arrive in memory; the operations arrive in the order of the calls with the results the writer was given; at a fence the visible contents are exactly what the calls made; a lookup that starts after a fence and ends before the next call finds exactly the members (ck_hs, ck_rhs).", "quantifier": "all interleavings of one writer, its store buffer and any number of readers, all keys, hash functions and allocation outcomes", "why_tests_cant": "The delay of a store is up to the processor; tests see few of the buffer states, and a lookup that misses an entry that is still buffered is a legal outcome which a test cannot tell from a wrong one.", "anchors": ["src/ck_hs.c:875-900", "src/ck_ht.c:775-816", "src/ck_rhs.c:1398-1426", "include/gcc/x86_64/ck_pr.h:173-283"]}
{"id": "C84", "title": "The remaining locks protect data under store buffering", "statement": "On x86-TSO, ck_pflock, ck_tflock and ck_swlock (without its latch) keep exclusion and their fairness (phase-fair, task-fair), whoever is inside reads the values last written inside although the writer's stores are buffered, and a waiting thread of ck_pflock and ck_tflock can always acquire; ck_spinlock_dec keeps exclusion and protects its data although waiters decrement the lock word while a release is still in flight, and its waiters get in once nobody is inside.", "quantifier": "all interleavings of fewer than 2^24 (pflock), 2^15 (tflock), 2^30 (swlock), 2^32 (dec) threads, all arrivals of buffered stores, all data values", "why_tests_cant": "Whether a buffered store arrives before or after a decrement or an unlock is decided by the processor; a missing drain shows only in rare interleavings, and the counters' wrap needs billions of operations.", "anchors": ["include/ck_pflock.h:69-141", "include/ck_tflock.h:55-134", "include/ck_swlock.h:57-212", "include/spinlock/dec.h:50-137", "include/gcc/x86_64/ck_pr.h:140-283"]}
{"id": "C85", "title": "Rings of structs keep the bytes of their elements apart", "statement": "For elements of any size, accesses to the buffer of a ring behave as if no two slots shared a byte, and enqueue/dequeue by one thread are those of a FIFO of 2^k-1 whole elements. This holds exactly when element size times (2^k-1) is below 2^32, because the offset of a slot is computed in unsigned int.", "quantifier": "all element sizes below 2^32, all ring sizes 2^k, all sequences of byte accesses and of calls, all byte contents", "why_tests_cant": "Offsets wrap only with buffers of 4 GiB or more; tests use small structs and small rings.", "anchors": ["include/ck_ring.h:157", "include/ck_ring.h:174-202", "include/ck_ring.h:218-250", "include/ck_ring.h:296", "include/ck_ring.h:373", "include/ck_ring.h:463", "include/ck_ring.h:747-984"]}
{"id": "C86", "title": "Predicates of the single-writer lock report its state", "statement": "ck_swlock_locked_writer is true exactly from the writer's announcement to its release; ck_swlock_locked exactly while the writer has announced itself or is inside or some reader's increment is in the word; ck_swlock_locked_reader is true whenever a reader is inside, and true only if some reader is counted.", "quantifier": "all reachable states of one writer and fewer than 2^30 threads, with latching, copies of the lock word and downgrades", "why_tests_cant": "The answer is wrong only in states other threads pass through between two instructions.", "anchors": ["include/ck_swlock.h:66-74", "include/ck_swlock.h:85-93", "include/ck_swlock.h:197-203"]}
{"id": "C87", "title": "Packed hash table entries give back what was put into them", "statement": "With pointer packing, ck_ht_entry_key, ck_ht_entry_key_length and ck_ht_entry_value return what ck_ht_entry_set stored, the memoized part of the hash compares equal exactly when the compared bits agree, and no real key looks empty or deleted, for every configured pointer width.", "quantifier": "all pointer widths below 64, all keys, values, lengths and hashes", "why_tests_cant": "Packing is off by default, and test keys are short with pointers of 48 bits.", "anchors": ["include/ck_ht.h:62-66", "include/ck_ht.h:135-216", "src/ck_ht.c:347-349", "src/ck_ht.c:568-570"]}
{"id": "C88", "title": "The stacks survive store buffers", "statement": "On x86-TSO, with the fences the library compiles to nothing there, ck_stack push, trypush, pop, trypop and batch_pop (UPMC) and push, trypush, pop, trypop (MPMC) satisfy C16 and C17: linearizable to a LIFO stack, failures only with cause, memory holding exactly the contents, and nothing left in a thread's store buffer when its operation returns.", "quantifier": "all interleavings of any number of threads, all arrivals of buffered stores, all entries (UPMC: not pushed under a pop that has read them)", "why_tests_cant": "When a buffered store arrives is up to the processor; a pop that follows a stale next pointer corrupts the stack only in rare interleavings.", "anchors": ["include/ck_stack.h:53-158", "include/ck_stack.h:166-262", "include/gcc/x86_64/ck_pr.h"]}
{"id": "C89", "title": "The MPMC linked FIFO is linearizable on x86-TSO", "statement": "On a machine with a FIFO store buffer per thread, where the fences of ck_fifo_mpmc compile to nothing and only ck_pr_cas_ptr_2 waits for the buffer, every history of ck_fifo_mpmc_enqueue, tryenqueue, dequeue and trydequeue is linearizable to a FIFO queue that hands out the previous stub as garbage, and at every moment the queued entries are linked in order in memory with their values stored.", "quantifier": "every number of threads, every interleaving of their instructions and of the arrival of buffered stores, every sequence of calls in which an entry is enqueued only when no operation in progress holds it as a snapshot and no other thread's buffer still holds stores to it", "why_tests_cant": "A missed drain shows only when a store stays buffered across several loads and another core's double-word CAS; testers cannot hold stores back on purpose and cover a handful of such schedules.", "anchors": ["include/ck_fifo.h:206-463", "include/gcc/x86_64/ck_pr.h"]}
{"id": "C90", "title": "The single-producer single-consumer FIFO survives store buffers", "statement": "On x86-TSO, where the fences of ck_fifo_spsc compile to nothing, dequeue returns the enqueued values in order, each once and only after it arrived, recycle returns emptied entries in order, each once and only after the consumer's release of it arrived, so that no entry is reused while either side may still access it; a failed dequeue or recycle means nothing had arrived, and isempty answers what its side can see.", "quantifier": "every interleaving of one producer and one consumer and of the arrival of their buffered stores, every sequence of calls that enqueues only fresh or recycled entries", "why_tests_cant": "An entry reused too early, or a link that becomes visible before the value, needs stores to stay buffered over many instructions; tests cannot hold them back and run few schedules.", "anchors": ["include/ck_fifo.h:39-185", "include/gcc/x86_64/ck_pr.h"]}
{"id": "C91", "title": "The centralized barrier separates episodes and publishes data through store buffers", "statement": "On x86-TSO no participant of ck_barrier_centralized returns from its k-th call before everybody has made its k-th call; whatever a participant stored before its call is what the others load after theirs, as long as accesses to the same datum are ordered by the barrier; and once everybody has entered, everybody can return although the store of the sense may be delayed.", "quantifier": "every number of participants below 2^32, every interleaving, every delay of buffered stores, every client that reads and writes shared data between the calls", "why_tests_cant": "A sense or a counter that stays in a store buffer while its owner already enters the next episode, or a datum that is still buffered when another participant returns, needs delays that tests neither control nor observe.", "anchors": ["src/ck_barrier_centralized.c:31-60", "include/ck_barrier.h:32-46", "include/gcc/x86_64/ck_pr.h"]}
{"id": "C92", "title": "The dissemination barrier separates episodes and publishes data through store buffers", "statement": "On x86-TSO, where ck_barrier_dissemination contains no instruction that waits for buffered stores, no participant returns from its k-th call before everybody has made its k-th call; whatever a participant stored before its call is what the others load after theirs, also those it never signals directly, as long as accesses to the same datum are ordered by the barrier; and once everybody has entered everybody can return.", "quantifier": "every number of participants from 1 to 2^31, every interleaving, every delay of buffered stores, every client that reads and writes shared data between the calls", "why_tests_cant": "A participant may be a whole episode ahead of the arrival of its own flags; two flags of different parity are then buffered at once, which tests cannot provoke.", "anchors": ["src/ck_barrier_dissemination.c:36-125", "include/gcc/x86_64/ck_pr.h"]}
