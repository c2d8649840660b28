{
 "claims": [
  {
   "property": "C01",
   "status": "proved",
   "theorems": [
    "internal_log_pow2",
    "internal_log_floor_refuted",
    "internal_power_2_least",
    "internal_power_2_zero",
    "internal_max",
    "cc_ffs",
    "cc_ctz",
    "cc_popcount"
   ],
   "note": "log is exact on powers of two (the only arguments its callers pass) and not floor(log2) elsewhere."
  },
  {
   "property": "C02",
   "status": "partial",
   "theorems": [
    "backoff_step",
    "backoff_bounded_partial",
    "backoff_never_exceeds_refuted",
    "backoff_saturates"
   ],
   "note": "The counter saturates at ceiling+1, one above the ceiling, so 'never exceeds' is refuted."
  },
  {
   "property": "C03",
   "status": "proved",
   "theorems": [
    "bitmap_set",
    "bitmap_reset",
    "bitmap_bts",
    "bitmap_test",
    "bitmap_init",
    "bitmap_history_partial"
   ],
   "note": "Per-operation theorems hold for every well-formed bitmap; the history theorem also covers bulk operations."
  },
  {
   "property": "C04",
   "status": "partial",
   "theorems": [
    "bitmap_union",
    "bitmap_intersection",
    "bitmap_intersection_negate",
    "bitmap_clear",
    "bitmap_history_partial",
    "bitmap_history_refuted",
    "bitmap_union_pointwise_refuted"
   ],
   "note": "Exact at block granularity for all lengths; pointwise on histories without a union from a longer source; refuted with one."
  },
  {
   "property": "C05",
   "status": "proved",
   "theorems": [
    "bitmap_empty",
    "bitmap_full",
    "bitmap_count",
    "bitmap_count_intersect"
   ],
   "note": ""
  },
  {
   "property": "C06",
   "status": "partial",
   "theorems": [
    "bitmap_iterate_partial",
    "bitmap_iterate_refuted"
   ],
   "note": "Exact for bitmaps with no bit beyond the length; refuted after a union from a longer source."
  },
  {
   "property": "C07",
   "status": "proved",
   "theorems": [
    "array_commit_publishes",
    "array_spec_deterministic"
   ],
   "note": ""
  },
  {
   "property": "C08",
   "status": "partial",
   "theorems": [
    "array_isolation_partial",
    "array_isolation_histories_partial",
    "array_isolation_refuted",
    "array_foreach_bounds_refuted",
    "array_foreach_snapshot_refuted"
   ],
   "note": "Only a remove issued while additions are pending leaks; refuted for that case and for the FOREACH macro, which ignores its snapshot."
  },
  {
   "property": "C09",
   "status": "partial",
   "theorems": [
    "array_remove_reports",
    "array_put_reports_partial",
    "array_put_unique_reports_partial",
    "array_put_reports_always_false",
    "array_put_reports_refuted"
   ],
   "note": "put/put_unique report failure on success whenever a transaction is open."
  },
  {
   "property": "C10",
   "status": "proved",
   "theorems": [
    "ring_spsc_linearizable",
    "ring_spsc_lin_points"
   ],
   "note": "linearizable to a FIFO of capacity 2^k-1 for all k<=31, word cursors with wrap; memcpy of an entry is one step"
  },
  {
   "property": "C11",
   "status": "proved",
   "theorems": [
    "ring_spsc_size",
    "ring_mpmc_quiescent",
    "ring_mpmc_failures"
   ],
   "note": "size at every reachable state (spsc) and at quiescence (mpmc), capacity, and sizes reported by enqueue/reserve at their sampling point"
  },
  {
   "property": "C12",
   "status": "proved",
   "theorems": [
    "ring_mpmc_linearizable",
    "ring_mpmc_failures",
    "ring_short_calls"
   ],
   "note": "word cursors; hypothesis short_calls: fewer than 2^32 operations take effect within one call; enqueue/dequeue/trydequeue/reserve/commit, any number of threads"
  },
  {
   "property": "C13",
   "status": "partial",
   "theorems": [
    "ring_sp_valid_refuted",
    "ring_sp_repair_refuted",
    "ring_mp_valid_refuted",
    "ring_sp_valid_partial",
    "ring_sp_repair_resets",
    "ring_mp_valid_partial",
    "ring_mpmc_quiescent"
   ],
   "note": "False as stated: single-producer enqueue never advances p_head so valid rejects healthy rings and repair discards contents; mp rings are rejected after cursor wrap. The true variants are proved."
  },
  {
   "property": "C14",
   "status": "proved",
   "theorems": [
    "fifo_spsc_linearizable",
    "fifo_spsc_recycle_once",
    "fifo_spsc_no_stuck"
   ],
   "note": "one enqueuer (enqueue, recycle, isempty) and one dequeuer (dequeue, isempty)"
  },
  {
   "property": "C15",
   "status": "proved",
   "theorems": [
    "fifo_mpmc_linearizable"
   ],
   "note": "entries enqueued again only when no operation in progress holds them as head or tail snapshot; generation counters wrap at 2^64 with no hypothesis"
  },
  {
   "property": "C16",
   "status": "proved",
   "theorems": [
    "stack_upmc_linearizable",
    "stack_upmc_failures"
   ],
   "note": "push, trypush, pop, trypop, batch_pop of the UPMC variant; entries re-pushed only when no pop that has read them is in progress"
  },
  {
   "property": "C17",
   "status": "partial",
   "theorems": [
    "stack_mpmc_linearizable_partial",
    "stack_mpmc_failures_partial",
    "stack_short_calls",
    "stack_mpmc_batch_refuted"
   ],
   "note": "linearizable with immediate reuse when batch_pop is not used; refuted with concurrent batch_pop because it does not advance the generation"
  },
  {
   "property": "C18",
   "status": "proved",
   "theorems": [
    "stack_np_linearizable",
    "stack_np_drain"
   ],
   "note": "push_mpnc interleaved step by step; push_spnc, pop_npsc and batch_pop_npsc in quiet phases"
  },
  {
   "property": "C19",
   "status": "proved",
   "theorems": [
    "fas_legal",
    "fas_no_stuck"
   ],
   "note": ""
  },
  {
   "property": "C20",
   "status": "proved",
   "theorems": [
    "cas_legal",
    "cas_no_stuck"
   ],
   "note": ""
  },
  {
   "property": "C21",
   "status": "proved",
   "theorems": [
    "dec_legal",
    "dec_no_stuck",
    "dec_bound_tight"
   ],
   "note": ""
  },
  {
   "property": "C22",
   "status": "proved",
   "theorems": [
    "ticket_fcfs",
    "ticket_no_stuck",
    "ticketg_fcfs",
    "ticketg_no_stuck",
    "fcfs_mutex",
    "fcfs_order"
   ],
   "note": ""
  },
  {
   "property": "C23",
   "status": "partial",
   "theorems": [
    "anderson_fcfs",
    "anderson_no_stuck",
    "anderson_locked_exact_pow2_partial",
    "anderson_locked_refuted"
   ],
   "note": "Lock/unlock proved for every slot count; the locked query is exact only for power-of-two counts and refuted otherwise."
  },
  {
   "property": "C24",
   "status": "proved",
   "theorems": [
    "mcs_fcfs",
    "mcs_no_stuck",
    "mcs_unlock_no_stuck",
    "mcs_trylock_truthful"
   ],
   "note": ""
  },
  {
   "property": "C25",
   "status": "proved",
   "theorems": [
    "clh_fcfs",
    "clh_no_stuck",
    "clh_locked",
    "clh_node_exclusive"
   ],
   "note": ""
  },
  {
   "property": "C26",
   "status": "proved",
   "theorems": [
    "hclh_mutual_exclusion",
    "hclh_cluster_fcfs",
    "hclh_no_stuck",
    "hclh_node_exclusive",
    "hclh_unlock_total"
   ],
   "note": "Mutual exclusion across and within clusters for every assignment of threads to clusters (fixed per thread), plus per-cluster FCFS, progress, and node ownership. locked() is not modelled."
  },
  {
   "property": "C27",
   "status": "proved",
   "theorems": [
    "rwlock_legal",
    "rwlock_writer_can_acquire",
    "rwlock_reader_can_acquire",
    "rw_exclusion"
   ],
   "note": ""
  },
  {
   "property": "C28",
   "status": "proved",
   "theorems": [
    "rwrec_legal",
    "rwrec_writer_can_acquire",
    "rwrec_reader_can_acquire"
   ],
   "note": ""
  },
  {
   "property": "C29",
   "status": "proved",
   "theorems": [
    "swlock_legal",
    "swlock_count",
    "swlock_writer_can_acquire",
    "swlock_reader_can_acquire"
   ],
   "note": "One writer thread (thread 0, which may also read), any number of readers below 2^30 (width of the reader field), latch with copy/write-back of the lock word."
  },
  {
   "property": "C30",
   "status": "proved",
   "theorems": [
    "pflock_legal",
    "pf_exclusion",
    "pf_writer_order",
    "pf_reader_waits_one_phase",
    "pflock_writer_can_acquire",
    "pflock_reader_can_acquire"
   ],
   "note": "Any number of threads below 2^24; tickets and reader counters wrap, so the number of acquisitions over time is unbounded."
  },
  {
   "property": "C31",
   "status": "proved",
   "theorems": [
    "tflock_legal",
    "tflock_can_acquire",
    "tf_exclusion",
    "tf_task_fair"
   ],
   "note": "fewer than 2^15 threads; counters wrap, any number of operations; one ck_pr operation per step, sequentially consistent interleavings"
  },
  {
   "property": "C32",
   "status": "partial",
   "theorems": [
    "bytelock_legal_partial",
    "bytelock_unslotted_refuted"
   ],
   "note": "exclusion proved for every mix except several threads sharing one unslotted value with one writing and another reading, where it is false of the code (out-of-bounds store and early release)"
  },
  {
   "property": "C33",
   "status": "proved",
   "theorems": [
    "brlock_legal",
    "brlock_exclusion",
    "brlock_list"
   ],
   "note": "any number of threads, one reader object per thread, nesting below 2^32, register/unregister concurrent; sequentially consistent interleavings"
  },
  {
   "property": "C34",
   "status": "proved",
   "theorems": [
    "cohort_legal"
   ],
   "note": "Local and global locks are abstract correct locks (a bit, any thread may release the global one); lock and trylock, any cohorts and limits."
  },
  {
   "property": "C35",
   "status": "partial",
   "theorems": [
    "cohort_trylock_leaves_global_refuted",
    "cohort_locked_refuted",
    "cohort_quiet_free_partial",
    "cohort_quiet_passed_partial",
    "cohort_locked_partial"
   ],
   "note": "Both halves are false of the code: a failing trylock can leave the global lock held with nobody inside, and locked() swaps the two predicates. Proved: without trylock the global lock is free when quiet; with trylock it was at worst passed to a cohort; locked() is right for locks of one kind."
  },
  {
   "property": "C36",
   "status": "partial",
   "theorems": [
    "rwcohort_legal_partial",
    "rwcohort_neutral_legal",
    "rwcohort_mixed_refuted"
   ],
   "note": "Neutral variant proved without restriction; writer and reader preference proved when the predicate applied to the global lock recognises it as held (true when both locks are of one kind), refuted otherwise because of the swapped predicates of C35."
  },
  {
   "property": "C37",
   "status": "proved",
   "theorems": [
    "sequence_consistent",
    "sequence_refused",
    "sequence_loop"
   ],
   "note": ""
  },
  {
   "property": "C38",
   "status": "proved",
   "theorems": [
    "central_separated",
    "central_progress"
   ],
   "note": "All executions of any number n < 2^32 of participants, unbounded number of calls."
  },
  {
   "property": "C39",
   "status": "partial",
   "theorems": [
    "dissem_separated_partial",
    "dissem_progress_partial",
    "dissem_separated_refuted"
   ],
   "note": "Proved for every 1 <= n <= 2^31, all executions, unboundedly many calls. Refuted for n > 2^31, where ck_internal_power_2 wraps to 0 and the barrier has no rounds."
  },
  {
   "property": "C40",
   "status": "partial",
   "theorems": [
    "mcs_separated_partial",
    "mcs_progress_partial",
    "mcs_progress_refuted"
   ],
   "note": "Proved for every 1 <= n <= 2^30, all executions, unboundedly many calls. Progress refuted for n = 2^30+1, where i << 2 wraps in init."
  },
  {
   "property": "C41",
   "status": "partial",
   "theorems": [
    "tourn_separated_partial",
    "tourn_progress_partial",
    "tourn_in_bounds_partial",
    "tourn_init_partial",
    "tourn_init_refuted",
    "tourn_init_bounds_refuted",
    "tourn_separated_refuted"
   ],
   "note": "Separation, progress and bounds of the barrier for 1<=n<=2^31 and any prior array contents. Init reads indeterminate roles when the arrays come from malloc (refuted), can index out of bounds on a stale LOSER; above 2^31 participants there is no synchronisation."
  },
  {
   "property": "C42",
   "status": "partial",
   "theorems": [
    "comb_separated_tree",
    "comb_progress_tree",
    "comb_build",
    "comb_separated_partial",
    "comb_progress_partial",
    "comb_separated_refuted"
   ],
   "note": "Separation and progress on every proper tree of groups, and on every tree made by init/group_init whose group sizes leave room for two child groups in the unsigned counter; a group of 2^32-1 threads with two children wraps its k and opens early (refuted)."
  },
  {
   "property": "C43",
   "status": "partial",
   "theorems": [
    "epoch_synchronize_partial",
    "epoch_synchronize_refuted"
   ],
   "note": "Proved for any number of threads, records, nested sections and concurrent synchronize calls as long as a thread does not have plain sections and section objects open together and the epoch advances fewer than 2^32-16 times; with both kinds open together synchronize can return early (refuted)."
  },
  {
   "property": "C44",
   "status": "partial",
   "theorems": [
    "epoch_grace_partial",
    "epoch_grace_refuted"
   ],
   "note": "Same two restrictions as C43: no wrap of the global epoch, and no plain sections and section objects open together, with which a callback can run too early (refuted); poll, barrier and reclaim after synchronize covered."
  },
  {
   "property": "C45",
   "status": "partial",
   "theorems": [
    "epoch_run_once",
    "epoch_barrier",
    "epoch_pending_count",
    "epoch_peak_refuted"
   ],
   "note": "At most once for all clients; barrier completeness and exact pending counter when calls and polls of a record do not overlap; the peak counter is never raised (refuted)."
  },
  {
   "property": "C46",
   "status": "partial",
   "theorems": [
    "epoch_advertised_partial",
    "epoch_advertised_refuted",
    "epoch_end_plain_partial",
    "epoch_end_bucket_partial",
    "epoch_end_refuted"
   ],
   "note": "Advertised epoch bound proved without mixed kinds of sections, refuted with them; end's result is exact for plain sections, per bucket for section objects, and refuted for overlapping section objects."
  },
  {
   "property": "C47",
   "status": "partial",
   "theorems": [
    "epoch_strict_refuted",
    "epoch_strict_partial"
   ],
   "note": "Refuted: a poll that already found no active record runs a callback pushed afterwards. True when no poll of the record overlaps the call."
  },
  {
   "property": "C48",
   "status": "proved",
   "theorems": [
    "hp_protected_not_destroyed",
    "hp_published_then_unretired"
   ],
   "note": "Proved over all executions of the hazard-pointer model for destructors that do not themselves retire objects (reent = false), any degree, any cache limit, any number of threads, records and objects; NULL protects nothing. The first theorem uses an observer, the second is stated over the log alone."
  },
  {
   "property": "C49",
   "status": "partial",
   "theorems": [
    "hp_destroyed_at_most_once",
    "hp_destroyed_or_pending",
    "hp_destroy_outstanding",
    "hp_pending_list",
    "hp_purge_empties",
    "hp_records_exclusive",
    "hp_purge_empties_refuted",
    "hp_reentrant_destroy_refuted"
   ],
   "note": "At most once, destroyed-or-pending (unregister forgets pending objects), memory list equals the outstanding retirements, purge empties when fewer than 2^32 are outstanding. Refuted: with 2^32 pending objects the 32-bit counter wraps and purge returns at once; a destructor that retires to the record being reclaimed loses the object and purge then spins forever."
  },
  {
   "property": "C50",
   "status": "proved",
   "theorems": [
    "hp_stack_linearizable",
    "hp_stack_accesses_live",
    "hp_stack_failures",
    "hp_stack_hazards"
   ],
   "note": "Composition of ck_hp_stack.h with the model of ck_hp.c (C48, C49). Protocol: a popped entry is retired and destroyed before it is pushed again; destructors do not retire."
  },
  {
   "property": "C51",
   "status": "partial",
   "theorems": [
    "hp_fifo_linearizable_partial",
    "hp_fifo_accesses_live_partial",
    "hp_fifo_hazards_partial",
    "hp_fifo_memory_partial",
    "hp_fifo_trydequeue_refuted"
   ],
   "note": "trydequeue is refuted: it can swing the head to NULL and dereference it when an entry it has loaded but not yet protected is reclaimed and enqueued again. The _partial theorems hold if nobody calls trydequeue, or no entry is enqueued twice, or no entry is enqueued while a trydequeue has loaded it from the head and not protected it. Destructors do not retire."
  },
  {
   "property": "C52",
   "status": "proved",
   "theorems": [
    "hs_semantics",
    "hs_no_null_store",
    "hs_returns"
   ],
   "note": "src/ck_hs.c function by function, all modes (delete or not, packed pointers or not), any hash and comparison satisfying the contract, any allocation results. Insertions that keep restarting after successful growth are cut off by fuel (outcome Loop): the theorems speak of calls that return; all other operations are shown to return."
  },
  {
   "property": "C53",
   "status": "proved",
   "theorems": [
    "hs_maintenance",
    "hs_returns"
   ],
   "note": "grow, rebuild, gc, reset, reset_size for all capacities and allocation failures."
  },
  {
   "property": "C54",
   "status": "partial",
   "theorems": [
    "hs_iteration_count",
    "hs_stat_tombstones_refuted",
    "hs_stat_uninitialised_refuted"
   ],
   "note": "Iteration, count and stat's entry count proved. stat's tombstone count is wrong in the code: never initialised and not decremented when a put reuses a tombstone."
  },
  {
   "property": "C55",
   "status": "proved",
   "theorems": [
    "hs_concurrent",
    "hs_concurrent_present",
    "hs_concurrent_absent"
   ],
   "note": "One writer running any operations of C52 and C53 store by store, any number of readers in ck_hs_get load by load. A present key is found unless 2^32 relocations are signalled during one lookup (the generation counters are 32 bits wide). Replaced maps and removed objects stay readable: reclaiming them is the client's duty."
  },
  {
   "property": "C56",
   "status": "partial",
   "theorems": [
    "ht_semantics_partial",
    "ht_put_no_tombstones",
    "ht_put_refuted",
    "ht_alias_refuted",
    "ht_no_null_store",
    "ht_returns"
   ],
   "note": "put of a present key succeeds (and duplicates the key) when a tombstone precedes it on the probe sequence: ht_put_refuted; bytestring keys at one address with different lengths are confused: ht_alias_refuted. Everything else proved for histories without such a put."
  },
  {
   "property": "C57",
   "status": "partial",
   "theorems": [
    "ht_maintenance_partial",
    "ht_iteration_count_partial",
    "ht_grow_refuted",
    "ht_no_null_store",
    "ht_returns"
   ],
   "note": "Proved for all histories in which no put wrongly succeeded (see C56); after such a put growing changes what get returns: ht_grow_refuted."
  },
  {
   "property": "C58",
   "status": "partial",
   "theorems": [
    "ht_concurrent_partial",
    "ht_pair_partial",
    "ht_torn_refuted"
   ],
   "note": "A set that moves an entry to a tombstone during the lookup can make get return a key with another key's value: ht_torn_refuted. Proved for every lookup during which no such set starts, in histories without a put that wrongly succeeded (C56) and with fewer than 2^64 increments of deletions during the call."
  },
  {
   "property": "C59",
   "status": "partial",
   "theorems": [
    "rhs_semantics_partial",
    "rhs_get",
    "rhs_no_null_partial",
    "rhs_iteration_count_partial",
    "rhs_put_loses_member_refuted",
    "rhs_remove_hides_member_refuted",
    "rhs_fas_lost_update_refuted",
    "rhs_apply_count_refuted"
   ],
   "note": "Proved for every hash function, comparison, pattern of malloc failures and history of put, put_unique, set, fas, remove, get, apply, grow, rebuild, gc, reset, reset_size and set_load_factor in both modes, as long as the set has at most 253 members (512 in read-mostly mode), fas does not have to allocate a map, and, for count only, no apply function deletes a member. Each of the restrictions is needed: four refutations show a lost member after a chain of 512 displacements, a hidden member with 255 keys of one hash, a lost update by fas, and a wrong count after a deletion by apply."
  },
  {
   "property": "C60",
   "status": "partial",
   "theorems": [
    "queue_macro_partial",
    "queue_history_partial",
    "queue_foreach",
    "queue_foreach_from",
    "queue_foreach_from_null",
    "slist_foreach_prevptr",
    "queue_empty",
    "slist_remove_prevptr_refuted"
   ],
   "note": "Every macro and every history of macros, for SLIST, STAILQ and LIST, on any memory representing any lists; memory outside the lists is untouched. The traversals (FOREACH, FOREACH_SAFE's order, FOREACH_FROM, FOREACH_PREVPTR) visit the elements in order and EMPTY tells whether there are none. CK_SLIST_REMOVE_PREVPTR is covered only when the caller's variable prevptr is the argument: the macro body names prevptr instead of its parameter prevp, which is refuted. CK_STAILQ_SWAP assigns to a non-lvalue as written and is modelled as evidently meant."
  },
  {
   "property": "C61",
   "status": "proved",
   "theorems": [
    "queue_readers",
    "queue_reader_visits_all",
    "queue_reader_visits_only",
    "queue_reader_ends",
    "queue_writer_steps",
    "queue_writer_ends",
    "queue_quiet_memory"
   ],
   "note": "One writer using insert head/tail/after/before and remove/remove head/remove after, any number of FOREACH and FOREACH_SAFE readers, interleaved at every store and load; removed elements keep their links and are not inserted again."
  },
  {
   "property": "C62",
   "status": "proved",
   "theorems": [
    "ec_counts"
   ],
   "note": ""
  },
  {
   "property": "C63",
   "status": "partial",
   "theorems": [
    "ec_no_lost_wakeup",
    "ec_sleep_unchanged",
    "ec_wait_success_partial",
    "ec_wait_success_refuted"
   ],
   "note": "No lost wake-up proved for the multi-producer mode; 'wait returns 0 only if the value changed' is refuted by a concurrent flag clear."
  },
  {
   "property": "C64",
   "status": "proved",
   "theorems": [
    "ec_add_ns",
    "ec_add",
    "ec_add_invalid",
    "ec_cmp",
    "ec_check_deadline",
    "ec_deadline",
    "ec_scale",
    "ec_scale_wide_refuted"
   ],
   "note": "Scaling is exact for shifts up to 32; for wider shifts the clamp threshold overflows."
  },
  {
   "property": "C65",
   "status": "partial",
   "theorems": [
    "ec_backoff_ends_partial",
    "ec_backoff_default",
    "ec_backoff_ends_refuted"
   ],
   "note": "Ends for every growing configuration including the default; refuted for configurations that shrink the wait."
  },
  {
   "property": "C66",
   "status": "proved",
   "theorems": [
    "cohort_passes_bounded",
    "cohort_pass_decision"
   ],
   "note": "Counted from the run itself (threads that acquired since the global lock was free), trylock included; limits below 2^32 as the field is an unsigned int."
  },
  {
   "property": "C67",
   "status": "partial",
   "theorems": [
    "pr_linearizable_partial",
    "pr_defined_partial",
    "pr_returns_partial",
    "pr_inc_ptr_zero_refuted",
    "pr_inc_ptr_wrap_refuted",
    "pr_int_overflow_refuted"
   ],
   "note": "All fallbacks and all widths. Refuted: ck_pr_inc_ptr_is_zero compares with UINT_MAX although pointers have 64 bits, so it is wrong at 2^32-1 and on wrapping; the int variants wrap with signed arithmetic, which is undefined. Everything else is proved."
  },
  {
   "property": "C68",
   "status": "proved",
   "theorems": [
    "ring_mixed_linearizable",
    "ring_mixed_failures",
    "ring_mixed_quiescent"
   ],
   "note": "every combination of the functions for one or many producers and consumers; simulated by the ring for many with the same log; hypothesis: fewer than 2^32 reservations or dequeues during one call (short_calls)"
  },
  {
   "property": "C69",
   "status": "partial",
   "theorems": [
    "ec_sp_tso_counts",
    "ec_sp_tso_wait_success_partial",
    "ec_sp_tso_no_lost_wakeup_partial",
    "ec_sp_tso_no_lost_wakeup_refuted"
   ],
   "note": "Counting is proved. Success with cause is proved up to a concurrent clearing of the flag (as C63). Wake-ups: proved for waiters whose backoff no waker's flag clearing interrupts and when the counter does not go round meanwhile; without the condition on the flag a wake-up can be lost, which is refuted for every in-flight bound and every final wait time: a waiter that has used up its backoff is woken by a producer that was preempted before clearing the flag, finds the flag set again by another waiter after the producer's next load, and sleeps without a deadline before that update overwrites the flag."
  },
  {
   "property": "C70",
   "status": "proved",
   "theorems": [
    "spin_tso_protects",
    "spin_tso_progress"
   ],
   "note": "ck_spinlock_fas and ck_spinlock_cas, including lock_eb, trylock and locked."
  },
  {
   "property": "C71",
   "status": "partial",
   "theorems": [
    "epoch_tso_safe",
    "epoch_tso_once",
    "epoch_tso_call_refuted"
   ],
   "note": "Proved for unlinking by atomic exchange followed by call/poll/synchronize/barrier and for unlinking by a plain store followed by synchronize/barrier, also that objects are destroyed at most once; refuted for a plain store followed by ck_epoch_call (no fence between the store and the load of the epoch). Plain sections; records registered throughout; call_strict and wait callbacks not included."
  },
  {
   "property": "C72",
   "status": "proved",
   "theorems": [
    "rw_tso_protects"
   ],
   "note": "ck_rwlock, ck_brlock (fixed list of registered readers, nested read locks) and ck_bytelock (slotted and unslotted readers, upgrade, downgrade) on the x86-TSO machine with client data. Unslotted threads do not write-lock a byte lock (see C32)."
  },
  {
   "property": "C73",
   "status": "partial",
   "theorems": [
    "hp_tso_safe",
    "hp_tso_free_refuted"
   ],
   "note": "Proved for objects unlinked by an atomic instruction, or by a plain store followed by a full fence. Refuted for a plain store followed directly by ck_hp_retire or ck_hp_free: ck_hp_reclaim has no store-load fence. Records in use are fixed (register and recycle under sequential consistency: C48, C49)."
  },
  {
   "property": "C74",
   "status": "proved",
   "theorems": [
    "ring_tso_fifo",
    "ring_tso_drained"
   ],
   "note": "_ck_ring_enqueue_sp, _ck_ring_enqueue_sp_size and _ck_ring_dequeue_sc on the x86-TSO machine, entries of any number of words copied in any order. reserve/commit and the multi-producer functions are under sequential consistency only."
  },
  {
   "property": "C75",
   "status": "proved",
   "theorems": [
    "sequence_tso_consistent",
    "sequence_tso_drained"
   ],
   "note": "read_begin, read_retry, write_begin and write_end on the x86-TSO machine; writers hold a fetch-and-store spinlock and may make several updates under it. The CK_SEQUENCE_READ loop is in C37."
  },
  {
   "property": "C76",
   "status": "partial",
   "theorems": [
    "rhs_concurrent",
    "rhs_concurrent_absent",
    "rhs_concurrent_present_partial",
    "rhs_concurrent_present_refuted"
   ],
   "note": "The presence half is false of maps with fewer than 1024 slots (finding): the writer increments generation[first slot & 1023] in ck_rhs_put_robin_hood and ck_rhs_do_backward_shift_delete, the reader watches generation[hash & 1023]. Proved for lookups during which every current map has at least 1024 slots, where the two indices are equal, and for lookups during which nothing is relocated; the other half holds for all capacities. Sequentially consistent accesses; sets of at most 253 (512 read-mostly) members and no fas that replaces the map, where C59 already finds the writer wrong."
  },
  {
   "property": "C77",
   "status": "proved",
   "theorems": [
    "ticket_tso_fcfs",
    "ticketg_tso_fcfs",
    "ticket_tso_progress",
    "ticketg_tso_progress",
    "clh_tso_fcfs",
    "clh_tso_progress",
    "mcs_tso_fcfs",
    "mcs_tso_progress",
    "anderson_tso_fcfs",
    "anderson_tso_progress"
   ],
   "note": "x86-TSO machine. Both variants of the ticket lock, CLH, MCS and Anderson; locked is modelled for the packed ticket lock and MCS only; hclh and the backoff and elision wrappers are not modelled on TSO."
  },
  {
   "property": "C78",
   "status": "partial",
   "theorems": [
    "elide_spin_protects",
    "elide_spin_closed",
    "elide_none_protects_refuted",
    "elide_none_trylock_fails",
    "elide_none_protects_partial"
   ],
   "note": "Proved for builds with transactional memory. Without it the trylock wrapper returns whether the lock is held (ck_elide.h:293) and never takes it: refuted, and proved for clients that do not use that wrapper."
  },
  {
   "property": "C79",
   "status": "partial",
   "theorems": [
    "elide_adapts_refuted",
    "elide_static",
    "elide_adapts_partial",
    "elide_skips",
    "elide_skips_end",
    "elide_spin_bounded_partial",
    "elide_spin_bounded_refuted",
    "elide_spin_free",
    "elide_success_resets"
   ],
   "note": "With a positive retry_conflict (as in the default configuration) every abort is retried and nothing is ever skipped: refuted; proved for retry_conflict <= 0 and for the counting of skipped calls. The spin is bounded only for a positive retry_busy."
  },
  {
   "property": "C80",
   "status": "partial",
   "theorems": [
    "elide_rw_protects",
    "elide_rw_no_fault",
    "elide_rw_closed_refuted",
    "elide_rw_discarded",
    "elide_rw_closed_partial"
   ],
   "note": "Exclusion, truth of reads and absence of faults hold for every mix of elided and direct sections. That unlock ends the transaction is false of the read side: U_P is locked_reader, which is true when another reader holds the lock, so the read unlock runs inside the transaction, which stays open and (elide_rw_discarded) never commits. It holds if only the write side is elided."
  },
  {
   "property": "C81",
   "status": "proved",
   "theorems": [
    "stack_lock_free",
    "stack_try_wait_free",
    "fifo_mpmc_lock_free",
    "fifo_mpmc_try_wait_free",
    "hp_stack_lock_free",
    "hp_stack_try_wait_free",
    "hp_fifo_lock_free_partial",
    "ring_sp_wait_free",
    "ring_sc_wait_free",
    "ring_trydequeue_wait_free",
    "ring_mc_lock_free",
    "ring_mp_unwaited_lock_free",
    "ring_mp_enqueue_blocks"
   ],
   "note": "ck_hp_fifo additionally, under the conditions of C51 and counted from the initial state. Enqueue for many producers, for which nothing is documented, is lock-free outside its wait for earlier producers and blocks there."
  },
  {
   "property": "C82",
   "status": "proved",
   "theorems": [
    "cc_ffs_correct",
    "cc_ctz_correct",
    "cc_popcount_correct"
   ],
   "note": "All words of up to 64 bits; the builtins of gcc/clang are trusted."
  },
  {
   "property": "C83",
   "status": "partial",
   "theorems": [
    "hs_tso_lookup",
    "hs_tso_order",
    "hs_tso_fence",
    "hs_tso_fenced_lookup",
    "hs_tso_unfenced_refuted",
    "ht_tso_lookup_partial",
    "ht_tso_order",
    "ht_tso_fence",
    "rhs_tso_lookup",
    "rhs_tso_order",
    "rhs_tso_fence",
    "rhs_tso_fenced_lookup"
   ],
   "note": "Complete for ck_hs; ck_ht and ck_rhs inherit the exceptions of C58 and C76 (torn lookups when a set moves an entry; relocations in maps with fewer than 1024 slots). hs_tso_unfenced_refuted shows that the fence in the last claim is needed."
  },
  {
   "property": "C84",
   "status": "proved",
   "theorems": [
    "pf_tso_fair",
    "pf_tso_protects",
    "pf_tso_writer_can_acquire",
    "pf_tso_reader_can_acquire",
    "tf_tso_fair",
    "tf_tso_protects",
    "tf_tso_can_acquire",
    "sw_tso_protects",
    "dec_tso_protects",
    "dec_tso_progress"
   ],
   "note": "Instruction-level code on the TSO machine; simulation by the models of C29 to C31 for locks without plain stores; direct invariant for ck_spinlock_dec."
  },
  {
   "property": "C85",
   "status": "partial",
   "theorems": [
    "ring_bytes_apart_iff",
    "ring_bytes_fifo_partial",
    "ring_bytes_fifo_refuted"
   ],
   "note": "Exact bound proved as an equivalence; for larger buffers (4 GiB and more) slots alias and an enqueue overwrites an element not yet dequeued (refuted)."
  },
  {
   "property": "C86",
   "status": "partial",
   "theorems": [
    "swlock_locked_writer_iff",
    "swlock_locked_iff",
    "swlock_locked_reader_partial",
    "swlock_locked_reader_refuted"
   ],
   "note": "locked_writer and locked characterised exactly. Under a latch locked_reader can be true with no reader inside or counted (refuted); otherwise it is true only for counted readers."
  },
  {
   "property": "C87",
   "status": "partial",
   "theorems": [
    "ht_pack_roundtrip_partial",
    "ht_pack_length_iff",
    "ht_pack_hash_iff",
    "ht_pack_special_iff",
    "ht_pack_roundtrip_refuted"
   ],
   "note": "Holds for lengths that fit into 64 minus the pointer width bits (all lengths for widths up to 48); wider pointers truncate lengths silently (refuted). A key at the highest address with the largest length looks deleted."
  },
  {
   "property": "C88",
   "status": "proved",
   "theorems": [
    "stack_upmc_tso_linearizable",
    "stack_upmc_tso_failures",
    "stack_mpmc_tso_linearizable",
    "stack_mpmc_tso_failures",
    "stack_tso_visible"
   ],
   "note": "Every TSO run has the log of a run of the model of C16/C17 (the store to next takes effect on arrival, before the CAS). MPMC without batch_pop, which C17 refutes already without store buffers."
  },
  {
   "property": "C89",
   "status": "proved",
   "theorems": [
    "fifo_mpmc_tso_linearizable",
    "fifo_mpmc_tso_memory"
   ],
   "note": "x86-TSO: fences are no-ops, the double-word CAS drains the buffer. Client discipline as C15 plus: an entry is not enqueued while another thread's buffer holds stores to it. Generations wrap mod 2^64; no bound on their number."
  },
  {
   "property": "C90",
   "status": "proved",
   "theorems": [
    "fifo_spsc_tso_legal",
    "fifo_spsc_tso_order",
    "fifo_spsc_tso_recycle",
    "fifo_spsc_tso_drained",
    "fifo_spsc_tso_no_stuck"
   ],
   "note": "x86-TSO; return and arrival are separate events of the specification. The spinlocks of the structure and deinit are not modelled."
  },
  {
   "property": "C91",
   "status": "proved",
   "theorems": [
    "central_tso_separated",
    "central_tso_data",
    "central_tso_progress"
   ],
   "note": "x86-TSO of Tso.v, all participants pass the same n; simulation into the SC model of C38 with stores performed when issued, plus an invariant on the pending data stores."
  },
  {
   "property": "C92",
   "status": "proved",
   "theorems": [
    "dissem_tso_separated",
    "dissem_tso_progress",
    "dissem_tso_data",
    "dissem_tso_data_separated"
   ],
   "note": "Own store-buffer machine over the state of the SC model; simulation with stores performed when issued; the machine with data projects to it. Up to 2^31 participants: above, the initialisation itself is wrong (finding at C39)."
  }
 ]
}
