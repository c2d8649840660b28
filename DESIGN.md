# Formal model of Concurrency Kit — design and trusted base

Target: the C sources in /repo (read as text, never built or run).  Prover:
Rocq/Coq 8.16.1, standard library only (no std++/Iris/mathcomp), so that the
trusted base is the Coq kernel plus whatever `Print Assumptions` reports.

## 1. Approach

* **Sequential code** (bitmap, array, hash tables, intrusive lists, time
  arithmetic, helpers) is modelled by total Gallina functions, function by
  function, and proved to refine a small mathematical specification.
* **Concurrent code** is modelled as an executable interleaving transition
  system: shared memory, one program counter + local variables per thread,
  one `ck_pr_*` memory operation per step.  A step is `step s (t, a)` where `t`
  is the thread and `a` is the client's choice when the thread is idle (which
  API call to make).  Executions are *all* lists of labels: any number of
  threads, any client program obeying the calling protocol, any schedule.
  Steps emit *events* (calls and returns of the API); specifications are small
  automata over event logs that know nothing about the implementation.
* Linearizability is stated with the linearization-point definition in
  `Lin.v`: a history is linearizable if one linearization event per operation
  can be inserted between its call and return such that their sequence is a
  legal sequential execution with the same results.
* Properties live in `*_Props.v`: nothing but theorem statements closed by
  `exact`, `Print Assumptions`, and `Example`s exhibiting non-trivial instances.
* When the code violates a documented promise the promise is kept in view and a
  theorem `…_refuted` exhibits an execution of the model violating it; the
  strongest true variant is proved beside it.

## 2. Memory model and what is not modelled

* Interleaving is sequentially consistent in C01-C68.  Fences (`ck_pr_fence_*`) are no-ops
  there, and the weak-memory question of whether the fences are sufficient is outside those
  models (their claims are relative to SC).
* C69 to C75, C77, C78, C80, C83, C84 and C88 to C92 are relative to x86-TSO (`Tso.v`; C83: `TsoSpmc_Model.v`, where only one thread stores; C88: `TsoStack_Model.v`; C89: `TsoFifoMp_Model.v`; C90: `TsoFifoSp_Model.v`; C92: `TsoDissem_Model.v`, `TsoDissemD_Model.v`): every thread has a FIFO store
  buffer, loads forward from it, locked instructions and the fences that are instructions
  under CK_MD_TSO (`ck_pr_fence_store_load`, `ck_pr_fence_memory`; include/ck_pr.h:144-166)
  wait for it to drain, all other fences are nothing.  Weaker architectures (CK_MD_PSO,
  CK_MD_RMO) are not modelled.
* Transactional memory (C78, C80) is the machine of `Rtm.v`: x86-TSO where a transaction collects its
  stores and commits them at once when the thread's buffer has drained; a store of another
  thread that reaches memory dooms the transactions that touched the location, and a
  transaction may abort at any time.  Doomed transactions make no further step (the hardware
  may let them run for a while; nothing they do is visible).
* `ck_pr_*` primitives are assumed to be atomic with their documented effect.
  Inline assembly and the compiler are out of scope.
* Fixed-width counters wrap explicitly where they matter (`mod 2^k`).
* Memory allocation is an oracle that may fail at any call; allocator
  correctness is assumed.
* Spin loops: one loop iteration = one or more steps; `ck_pr_stall` is a no-op.
* Liveness is stated as possibility of progress (“from every reachable state …
  can still …”) or as a bound on steps (C81), never as fairness-based termination.

## 3. Plan per property

| id | component files | model and proof |
|---|---|---|
| C01 Integer helpers compute the mathematical function they name | `Helpers_*` | Pure functions over N with 32-bit truncation; prove against N.log2 and powers of two for all inputs. |
| C02 Exponential backoff doubles up to its ceiling and never exceeds it | `Helpers_*` | Pure function on the counter; induction on the number of calls. |
| C03 A bitmap is a set of indices | `Bitmap_*` | Blocks as list N (32-bit words). Refinement to a membership predicate by N.testbit lemmas; induction over operation lists. |
| C04 Bulk bitmap operations are pointwise set operations | `Bitmap_*` | Same model; pointwise theorem for arbitrary lengths, plus refutation that union keeps members below the length. |
| C05 Bitmap queries agree with the set they query | `Bitmap_*` | Same model; counting against an independent `filter` over indices. |
| C06 Bitmap iteration enumerates exactly the members, ascending, once | `Bitmap_*` | Iterator as fuelled function with an explicit out-of-fuel outcome; theorem gives the fuel bound. Refuted for bitmaps produced by union with a longer source; proved for the rest. |
| C07 Array commit publishes exactly the requested elements | `Array_*` | Sequential model with allocator oracle; refinement to a multiset via Permutation; induction over histories. |
| C08 Array readers do not see uncommitted changes | `Array_*` | Same model; refuted by remove-with-pending-put; proved for histories without that combination. |
| C09 Array operations report success truthfully | `Array_*` | Same model; refuted for the grow-in-transaction put; proved otherwise. |
| C10 Single-producer single-consumer ring is a linearizable bounded FIFO | `RingSp_*` | Interleaving model with one producer, one consumer; refinement to bounded queue; cursors mod 2^32. |
| C11 Ring size and capacity report the number of buffered elements | `RingSp_*` | Function of the cursors; from the invariant of C10. |
| C12 Multi-producer multi-consumer ring is a linearizable bounded FIFO | `RingMp_*` | Interleaving model with per-producer tickets; invariant relating cursors to an abstract queue. |
| C13 Ring validity check and repair agree with a healthy ring | `RingSp_*` | Evaluate valid/repair on reachable rings; refuted with a witness; proved for rings on which it holds. |
| C14 Single-producer single-consumer list FIFO is linearizable | `FifoSp_*` | Heap model of entries; producer/consumer interleaving; refinement to a queue. |
| C15 Multi-producer multi-consumer list FIFO delivers in order, exactly once | `FifoMp_*` | Heap model; Michael-Scott invariant; fresh entries. |
| C16 UPMC stack is a linearizable LIFO for entries pushed once | `Stack_*` | Heap model; Treiber stack with fresh entries; refinement to a list. |
| C17 MPMC stack is a linearizable LIFO even when entries are reused immediately | `Stack_*` | Heap model with generation counter and reuse; refinement; refutation with batch_pop. |
| C18 Producer-only and consumer-only stacks keep LIFO order | `StackNp_*` | Phase model / sequential functions. |
| C19 Test-and-set spinlock (fas): mutual exclusion and no stuck state | `SpinFas_*` | Interleaving LTS, lock automaton. |
| C20 Compare-and-swap spinlock: mutual exclusion and no stuck state | `SpinCas_*` | Interleaving LTS, lock automaton. |
| C21 Decrement spinlock: mutual exclusion under its concurrency bound | `SpinDec_*` | Interleaving LTS with 32-bit wrap and a counting invariant. |
| C22 Ticket lock: mutual exclusion and first-come-first-served | `SpinTicket_*` | Interleaving LTS for packed and generic variants with mod arithmetic; FIFO automaton. |
| C23 Anderson array lock: mutual exclusion and first-come-first-served | `SpinAnderson_*` | Interleaving LTS; FIFO automaton; locked refuted for non powers of two. |
| C24 MCS lock: mutual exclusion and first-come-first-served | `SpinMcs_*` | Interleaving LTS with queue-node heap; ghost queue invariant; FIFO automaton. |
| C25 CLH lock: mutual exclusion and first-come-first-served with node recycling | `SpinClh_*` | Interleaving LTS with node heap and recycling; ghost queue. |
| C26 Hierarchical CLH lock: mutual exclusion across and within clusters | `SpinHclh_*` | Interleaving LTS; ghost global queue and local queues. |
| C27 Centralized read-write lock: exclusion, trylock, downgrade | `RwLock_*` | Interleaving LTS, rw-lock automaton, counting invariant. |
| C28 Recursive read-write lock: owner may re-enter, others excluded until fully released | `RwLockRec_*` | Same with owner field and recursion depth. |
| C29 Single-writer read-write lock: exclusion including latch and downgrade | `SwLock_*` | Interleaving LTS with bit-packed word. |
| C30 Phase-fair read-write lock: exclusion and writer order | `PfLock_*` | Interleaving LTS with packed words and phase invariant. |
| C31 Task-fair read-write lock: exclusion and arrival order | `TfLock_*` | Interleaving LTS with packed wrapping counters. |
| C32 Byte lock: exclusion between slotted readers, unslotted readers and the writer | `ByteLock_*` | Interleaving LTS; refutation for unslotted writer + unslotted reader. |
| C33 Big-reader lock: exclusion with registered readers | `BrLock_*` | Interleaving LTS with reader list. |
| C34 Cohort lock: mutual exclusion over all cohorts | `Cohort_*` | Interleaving LTS over abstract (specification-level) local and global locks. |
| C35 Cohort trylock and locked keep the lock usable | `Cohort_*` | Same LTS with trylock; refuted with a witness. |
| C36 Reader-writer cohort locks: exclusion in all three preference modes | `RwCohort_*` | Interleaving LTS over abstract cohort lock. |
| C37 Sequence counter readers accept only consistent snapshots | `Sequence_*` | Interleaving LTS; ghost version history. |
| C38 Centralized barrier separates episodes | `BarCentral_*` | Interleaving LTS with episode counters. |
| C39 Dissemination barrier separates episodes | `BarDissem_*` | Interleaving LTS; knowledge invariant over rounds. |
| C40 MCS tree barrier separates episodes | `BarMcs_*` | Interleaving LTS; tree invariant. |
| C41 Tournament barrier separates episodes and initialises in bounds | `BarTourn_*` | Interleaving LTS; initialisation modelled with undefined values. |
| C42 Combining barrier separates episodes | `BarComb_*` | Interleaving LTS over group trees. |
| C43 Epoch synchronize waits for every earlier read section | `Epoch_*`, `EpochSync_*` | Interleaving LTS with records, sections, scan as per-record steps. |
| C44 Epoch deferred callbacks run only after a grace period | `Epoch_*`, `EpochGrace_*` | Same LTS with pending buckets and poll/dispatch. |
| C45 Epoch deferred callbacks run exactly once and are never lost | `EpochPlace_*`, `EpochOnce_*` | Same LTS; where each entry is, how often it ran. |
| C46 Epoch sections protect across overlapping begin/end pairs | `EpochOwn_*`, `EpochEnd_*` | Same LTS; reference buckets against the moving global epoch. |
| C47 Strict deferral on shared records respects the grace period | `Epoch_*` | Witness execution refuting. |
| C48 Hazard pointers: a protected object is never destroyed | `Hp_*`, `HpSafe_*` | Interleaving LTS of hazard publication, retire, scan. |
| C49 Hazard pointers: each retired object is destroyed exactly once | `HpPend_*`, `HpOnce_*`, `HpEnd_*` | Same LTS: pending list, cache, slow path, purge. |
| C50 Hazard-pointer stack is a linearizable LIFO with safe reclamation | `HpClient_*`, `HpStack_*` | Interleaving LTS of the stack on top of the hazard pointer LTS; the client retires a popped entry and may push it again only after its destructor ran (destructors make no calls). |
| C51 Hazard-pointer FIFO is safe under reclamation | `LinPast`, `HpClient_*`, `HpFifo_*` | Interleaving LTS of the queue on top of the hazard pointer LTS; a witness execution refutes trydequeue, the theorems hold without it or with restricted reuse of entries. An empty answer is linearized at a past moment of the call (`LinPast`). |
| C52 Hash set behaves as a set under every mutation API | `Hs_*`, `HsInv_*`, `HsOps_*`, `HsSet_*`, `HsGc_*` | Sequential model of map, probe, tombstones, bounds; refinement to association by key equivalence. |
| C53 Hash set resizing and garbage collection preserve contents | `Hs_*` | Same model; grow/gc/rebuild. |
| C54 Hash set iteration and counting are exact | `Hs_*` | Same model; iteration over slots; tombstone statistic refuted. |
| C55 Hash set concurrent readers never miss a stable member | `HsConc_*`, `HsConcT_*` | Writer stores (the traces of the sequential model) interleaved with reader loads; observer over the log. |
| C56 Hash table behaves as a finite map | `Ht_*`, `HtInv_*`, `HtOps_*`, `HtSet_*`, `HtGc_*` | Sequential model; put refuted; remaining operations proved. |
| C57 Hash table resizing, iteration and counting are exact | `Ht_*` | Same model. |
| C58 Hash table readers never observe a key paired with another key's value | `HtConc_*`, `HtConcT_*` | Writer stores (the traces of the sequential model) interleaved with reader loads; observer over the log; torn pair refuted, the rest proved. |
| C59 Robin Hood hash set behaves as a set | `Rhs_*`, `RhsInv_*` … `RhsRef_*` | Sequential model of probing, displacement chains, wanted counts, bounds, backward-shift deletion; refinement for sets of at most 253 (512) members; larger sets, fas that allocates, and count after apply-removal refuted. |
| C60 Intrusive lists refine sequences | `Queue_*`, `QueueOp_*`, `QueueSeq_*` | Macros as lists of stores over a memory of links; refinement to lists. |
| C61 Intrusive list readers concurrent with one writer are safe | `QueueRd_*`, `QueueEnd_*` | The same stores interleaved with any number of readers; observer of what a traversal must and may visit. |
| C62 Event counts count | `Ec_*` | Word arithmetic model mod 2^32 / 2^64. |
| C63 Event counts do not lose wake-ups | `Ec_*` | Interleaving LTS of producers and waiters with an abstract futex. |
| C64 Event count time arithmetic saturates and compares correctly | `EcTime_*` | Pure functions over Z with 64-bit range. |
| C65 Event count exponential backoff terminates | `EcTime_*` | Pure function; refuted for degenerate configurations, proved otherwise. |
| C66 Cohort locks pass locally up to the limit | `CohortPass_*` | The LTS of C34 with the list of acquirers since the global lock was free. |
| C67 Portable atomic fallbacks are atomic (added) | `Pr_*` | Interleaving LTS of one word; linearization point at the successful compare-and-swap; bit-level lemmas for all widths. |
| C68 Rings with one producer or one consumer are linearizable FIFOs (added) | `RingMix_*` | Simulation by the ring for many with identical logs; one step for one producer or consumer is a short run for many. |
| C69 Single-producer event counts survive store buffers (added) | `EcTso_*` | LTS with the producer's store buffer and a clock; invariant tying flag, buffer and age of the updates in flight. |
| C70 Spinlocks protect data under store buffering (added) | `Tso`, `TsoLock_Spec`, `TsoSpin_*` | x86-TSO machine with client data; the observer separates the return of unlock from the arrival of its store. |
| C71 Epoch reclamation survives store buffers (added) | `TsoSmr_Spec`, `TsoEpoch_*` | x86-TSO machine with clients that publish, read, unlink and destroy objects; invariant on epochs, buffers and references; refuted for a buffered unlink followed by ck_epoch_call. |
| C72 Reader-writer locks protect data under store buffering (added) | `TsoRw_*` | one x86-TSO program for ck_rwlock, ck_brlock and ck_bytelock with client data; invariant on the writer word, announcements and buffered stores. |
| C73 Hazard pointers survive store buffers (added) | `TsoHp_*` | x86-TSO machine with clients that publish, protect, validate, unlink, retire and reuse addresses; ghost map from object to place; refuted for a buffered unlink. |
| C74 The single-producer single-consumer ring survives store buffers (added) | `TsoRing_*` | x86-TSO machine, word-wise memcpy in any order; ghost cursors for consumed, arrived and sent entries; the specification separates return from arrival. |
| C75 Sequence counters survive store buffers (added) | `TsoSeq_*` | x86-TSO machine; the writer's buffer is described by an inductive trace from the visible to the newest version. |
| C76 Robin Hood hash set concurrent readers never miss a stable member (added) | `RhsTr_*`, `RhsConc_*` | The sequential model records its visible stores; a trace relation carried through all operations says where each key stays findable and which generation is incremented when its place changes; stores interleaved with reader loads; refuted for maps with fewer than 1024 slots. |
| C77 Queue locks protect data and keep their order under store buffering (added) | `TsoQueue_*`, `TsoTicket_*`, `TsoClh_*`, `TsoMcs_*`, `TsoAnderson_*` | x86-TSO machine; ghost queue of requests with three states of ownership (free, held, released but not visible); per lock an invariant that places each link, mark and release in memory or in one buffer; progress by explicit schedules. |
| C78 Elided critical sections are indistinguishable from locked ones (added) | `Rtm`, `ElideSpin_*`, `ElideNone_*` | x86-TSO with restricted transactional memory; the lock specification of C70; invariant: the events of a live transaction are a critical section over every data that agrees with memory on what it touched. |
| C79 Adaptive elision follows its configuration (added) | `Elide_*` | The policy as a small machine with the transactions' outcomes as input; refuted for positive retry_conflict, closed forms for the rest. |
| C80 Elided reader-writer sections are indistinguishable from locked ones (added) | `Rtm`, `ElideRw_*` | as C78 with the reader-writer specification of C72; the closing of transactions is refuted for the read side, proved for the write side. |
| C81 Non-blocking structures make the documented progress (added) | `LockFree_*`, `Lf*_*` | `steps t ls <= K + A * calls t log + B * effects log` between any reachable state and a later one; per-thread potential that a step of the thread lowers and only an effect of another raises; for the FIFOs the potential counts the lag of the tail. Outside the documentation: enqueue for many producers is shown to block. |
| C82 Portable bit-scan fallbacks compute what they stand in for (added) | `Cc_*` | Direct, by induction on the width; specification by `Z.testbit`. |
| C83 Hash table readers survive the writer's store buffer (added) | `TsoSpmc_*`, `TsoHs_*`, `TsoHt_*`, `TsoRhs_*` | A machine with one writer, its store buffer and any number of readers; simulation by the sequentially consistent machine of C55, C58 and C76 in which the writer's calls happen when their first store leaves the buffer; that each operation computes the same there follows because the writer sees memory with its buffer applied. |
| C84 The remaining locks protect data under store buffering (added) | `TsoRwf_*`, `TsoRwfPf_*`, `TsoRwfTf_*`, `TsoRwfSw_*`, `TsoDec_*` | ck_pflock, ck_tflock and ck_swlock without the latch have no plain stores: every run on TSO simulates a run of the model of C30, C31, C29 with the same lock events; a generic invariant (only the writer has data in its buffer, and every way out of a write section is a locked instruction) gives the data.  ck_spinlock_dec releases with a plain store: direct invariant counting the decrements by threads that spin. |
| C85 Rings of structs keep the bytes of their elements apart (added) | `RingBytes_*` | byte memory and offsets modulo 2^32: layout equivalent to separate slots iff the last offset fits; FIFO of whole elements under the bound, refuted without |
| C86 Predicates of the single-writer lock report its state (added) | `SwLocked_*` | from the invariant of C29; `locked_reader` refuted under a latch |
| C87 Packed hash table entries give back what was put into them (added) | `HtPack_*` | bit-level proofs for every pointer width; refuted for widths above 48 and long keys |
| C88 The stacks survive store buffers (added) | `TsoStack_*` | simulation into `Stack_Model` where the store to `next` happens at its arrival: same log, so C16/C17 carry over |
| C89 The MPMC linked FIFO on TSO (added) | `TsoFifoMp_*` | simulation into `FifoMp_Model` where the stores to a private entry happen when issued; relation: fields agree for every thread whose view has no foreign buffered store, a pending store is to an entry no operation holds as a snapshot, and a dequeue that read a stale value is bound to fail its CAS |
| C90 The SPSC linked FIFO survives store buffers (added) | `TsoFifoSp_*` | own machine with one buffer per side; invariant: the producer's buffer is a suffix of the script of stores for the entries under way, the consumer's buffer lists the entries between the head in memory and its own; the specification separates return from arrival |
| C91 The centralized barrier on x86-TSO (added) | `TsoBar_*` | `Tso.v` machine simulated by the SC machine of C38 with stores performed when issued: at most one store of the sense is pending, and while it is everybody else spins in the same episode; data stores are pending only outside the barrier or before the locked increment; the specification of the data is a replay that stops constraining at the first access the barrier does not order |
| C92 The dissemination barrier on x86-TSO (added) | `TsoDissem_*`, `TsoDissemD_*` | store buffers over the state of the model of C39; simulated by that model with stores performed when issued: every buffered flag belongs to an episode whose wait its reader has not passed, and memory holds its opposite.  With data (`TsoDissemD_*`, projected to the former): while a datum is buffered, every flag its writer stored since is buffered behind it, and nobody within the distance covered by its rounds relies on it |

## 4. Findings

Each is a theorem about the model; the witness executions are in the proof files.

| where | what | theorem |
|---|---|---|
| src/ck_internal.h:39 `ck_internal_log` | wrong for values that are not powers of two | C01 |
| include/ck_backoff.h | the counter reaches ceiling+1 | C02 |
| include/ck_bitmap.h `ck_bitmap_union` | bits of a longer source beyond the length are copied into the last block; later queries, iteration and counting see them | C04, C06 |
| src/ck_array.c `ck_array_put`, `put_unique` | report failure although the element is in the open transaction | C09 |
| src/ck_array.c `ck_array_remove` | with pending adds, edits the committed array: readers see uncommitted changes | C08 |
| include/ck_array.h `CK_ARRAY_FOREACH` | ignores the snapshot it takes | C08 |
| include/ck_ring.h valid/repair | sp enqueue never advances p_head: valid rejects a healthy ring, repair discards its data; mp valid rejects after cursor wrap | C13 |
| include/ck_stack.h `ck_stack_batch_pop_mpmc` | does not bump the generation: ABA with a concurrent pop | C17 |
| include/spinlock/anderson.h `locked` | wrong when the slot count is not a power of two | C23 |
| include/ck_bytelock.h | an unslotted reader is confused with the writer; out-of-bounds store | C32 |
| include/ck_cohort.h | a failing trylock can leave the global lock held with nobody inside; `locked` applies the two predicates to the wrong locks | C35 |
| include/ck_rwcohort.h | exclusion broken when the lock kinds are mixed | C36 |
| src/ck_barrier_dissemination.c | more than 2^31 threads | C39 |
| src/ck_barrier_mcs.c | deadlock for more than 2^30 threads | C40 |
| src/ck_barrier_tournament.c | initialisation leaves roles unset and writes out of bounds for some counts | C41 |
| src/ck_barrier_combining.c | group counter wrap | C42 |
| src/ck_epoch.c | synchronize returns early, and callbacks run early, when plain sections and section objects are mixed | C43, C44, C46 |
| src/ck_epoch.c:385-386 | n_peak is never raised | C45 |
| include/ck_epoch.h `ck_epoch_end` | returns true while the section object of the other bucket is open | C46 |
| src/ck_epoch.c call_strict | overlapping a poll that found no active record, the callback runs without a grace period | C47 |
| src/ck_hp.c:279-283 | a destructor that retires to the record being reclaimed loses the object; purge then spins; purge returns at once with 2^32 pending | C49 |
| include/ck_hp_fifo.h:193-222 `ck_hp_fifo_trydequeue_mpmc` | the tail is loaded before the head is protected, and `next` is tested for NULL only if head equals that tail: with an entry reclaimed and enqueued again in between, the head becomes NULL and NULL is dereferenced | C51 |
| include/ck_ec.h:213-226, src/ck_ec.c:155-194 | the comment says that once more than a second has passed since the flag flip the flag will definitely be observed; but the time runs from the beginning of the backoff, and a flag cleared and set again in the meantime is as young as the other waiter's flip: the producer's update in flight can overwrite it, and a waiter sleeps without a deadline unwoken | C69 |
| include/ck_epoch.h:188-208 `ck_epoch_call` | the comment says "we can get away without a fence here": true if the object was unlinked by an atomic instruction; after an unlink by a plain store, the store may still be buffered while other threads advance the epoch twice, and the callback runs while a reader that found the object later is using it | C71 |
| src/ck_hp.c:229-291 `ck_hp_reclaim` | there is no store-load fence between the unlink and the scan of the hazards: after an unlink by a plain store the store may still be buffered, the scan finds no hazard, and a reader that protects and validates the object afterwards has a reference to a destroyed object | C73 |
| include/ck_pr.h:769 `ck_pr_inc_ptr_is_zero` | the fallback compares the old pointer with UINT_MAX instead of UINTPTR_MAX: true at 2^32-1, false on wrapping to zero | C67 |
| include/ck_pr.h:272-295, 507-525, 690-712 int variants | the fallbacks for int compute with signed arithmetic: wrapping and bit 31 are undefined behaviour | C67 |
| include/ck_queue.h:215-217 `CK_SLIST_REMOVE_PREVPTR` | stores through `prevptr`, which is not its parameter | C60 |
| include/ck_queue.h:351,353 `CK_STAILQ_SWAP` | assigns to the value of an expression: does not compile when used (modelled as meant) | C60 (note) |
| src/ck_hs.c:198-252 `ck_hs_map_create` | leaves `tombstones` uninitialised; puts that reuse a tombstone never count it off (834-850): `ck_hs_stat` is wrong | C54 |
| src/ck_hs.c:284 `ck_hs_map_probe_next` | shifts by 64 or more (undefined behaviour) once a probe passes 64 buckets, which tables of 2^15 slots or more allow; the model takes any value there | C52 (note) |
| src/ck_hs.c:204 | capacities of 2^32 and more pass through a 32-bit helper and give an 8-slot map | C53 (note) |
| src/ck_ht.c:972-1013 `ck_ht_put_spmc` | when a tombstone precedes the key on its probe sequence the put succeeds although the key is present: the key is stored and counted twice, removing it brings the old value back, growing can swap the values | C56, C57 |
| src/ck_ht.c:328,546 | the pointer comparison ignores lengths: bytestrings of different lengths at one address are confused | C56 |
| src/ck_ht.c:881 `ck_ht_set_spmc` | moving an entry to a tombstone tests the tombstone's value instead of its key, so `deletions` is not incremented before the slot is reused: a reader can return a key with another key's value | C58 |
| src/ck_ht.c `ck_ht_map_create` | capacities of 2^32 and more pass through a 32-bit helper | C57 (note) |
| src/ck_rhs.c:935-937 `ck_rhs_put_robin_hood` | after a chain of 512 displacements the last probe starts from the hash of the slot before, not of the entry in hand: the entry ends up where its key is not looked for, and another is overwritten | C59 |
| src/ck_rhs.c:1039-1075 `ck_rhs_do_backward_shift_delete` | once a bound has saturated at 255, deletions set it below the probe count of entries that remain: a stored member is no longer found | C59 |
| src/ck_rhs.c:1088-1101 `ck_rhs_fas` | `map` is read once before `restart`: after growing, the function updates the map it has replaced and returns true | C59 |
| src/ck_rhs.c:1169-1179 `ck_rhs_apply` | deletion does not decrement `n_entries`: `ck_rhs_count` is too large | C59 |
| src/ck_rhs.c:976, 989, 1037 against 1412 | the writer signals a relocation in `generation[first slot & 1023]`, the reader watches `generation[hash & 1023]`; in a map with fewer than 1024 slots these differ for hashes with bits above the mask, and `ck_rhs_get` misses a key that is a member throughout | C76 |
| src/ck_rhs.c:165-171, 560 `ck_rhs_grow` | the wanted counter of a slot is incremented without the saturation test used elsewhere (860): it wraps at 65536 | C59 (note) |
| include/ck_elide.h:288-294 trylock without CK_F_PR_RTM | returns `TL_P(lock)`, whether the lock is held, instead of calling TL: it succeeds exactly when another thread is inside, and never takes the lock (doc/ck_elide: "will immediately call TRYLOCK_FUNCTION") | C78 |
| include/ck_elide.h:93-102, 152-184 adaptive elision | with a positive `retry_conflict` (the default) `_ck_elide_fallback` returns at `*retry > 0` on every abort: the reason is never looked at, `skip` is never set, the busy spin is never entered, `retry_other` is not used anywhere | C79 |
| include/ck_elide.h:171-174 | with `retry_conflict` and `retry_busy` at most 0 the spin counter is decremented past zero: it spins until the int overflows | C79 |
| include/ck_rwlock.h:204-206, ck_elide.h:190-201 elided read unlock | the unlock predicate of the read side is `ck_rwlock_locked_reader`, which is true when any other reader holds the lock (doc/ck_elide: it must be true if the lock is acquired *by the caller*): the elided unlock then decrements n_readers inside the transaction and does not end it. The transaction stays open after unlock, can never commit, and everything since lock is eventually undone and repeated. Exclusion is not violated. ck_swlock_read is instantiated the same way (not modelled) | C80 |
| include/ck_ring.h:157, 192, 240, 296, 373, 440, 463 | the offset of a slot, element size times index, is computed in unsigned int: in buffers of 4 GiB or more slots alias, and an enqueue overwrites elements not yet dequeued (shown for 4 slots of 2 GiB; the exact bound is size * (slots - 1) < 2^32) | C85 |
| include/ck_swlock.h:197-203 `ck_swlock_locked_reader` | under a latch the increments of readers that backed off stay in the word: true although no reader is inside or will take anything back | C86 |
| include/ck_ht.h:150-162, 197-216 with CK_HT_PP | with more than 48 pointer bits (--vma-bits=57) key lengths of 2^(64-bits) and more are truncated silently; CK_HT_KEY_LENGTH is not checked anywhere | C87 |
| include/ck_ec.h wait | may return 0 spuriously; the scaled deadline shift and the backoff have degenerate configurations | C63, C64, C65 |

Names of the refuting theorems end in `_refuted`; MANIFEST.json lists them beside the
strongest variant that holds.

## 5. Trusted base

* The Coq 8.16.1 kernel (coqc, re-checked by coqchk) and the parser/printer in so far as
  statements are read through them.
* Axioms: none.  Every property theorem prints "Closed under the global context" (list
  below).  coqchk's context summary names seven constants `Coq.ssr.ssrunder.Under_rel.*`;
  they are module-type parameters of the ssreflect library that is loaded with the standard
  prelude (`Lia`), and no theorem depends on them.
* The models: that the Gallina functions and transition systems say what the C says.  Each
  definition cites the lines it stands for.  Section 2 lists what is abstracted (memory
  order, allocation, compiler, ck_pr primitives).
* Not modelled: elision of the locks other than fas/cas spinlocks and ck_rwlock, the primitive accesses and fences of ck_pr.h, doubles, and the per-architecture assembly, the macros of ck_cc.h (its bit-scan fallbacks are, C82), ck_malloc
  clients, ck_fifo deinit/garbage of spsc beyond recycle, hclh `locked`, the concurrent behaviour of packed ck_ht entries (CK_HT_PP; the accessors are, C87), regressions and tools, deinit and the traversal macros of ck_hp_fifo.h and ck_hp_stack.h.

### Print Assumptions

All of the following: "Closed under the global context".

`Array_Props.v`: `array_commit_publishes`, `array_spec_deterministic`, `array_remove_reports`, `array_put_reports_partial`, `array_put_unique_reports_partial`, `array_put_reports_always_false`, `array_put_reports_refuted`, `array_isolation_partial`, `array_isolation_histories_partial`, `array_isolation_refuted`, `array_foreach_bounds_refuted`, `array_foreach_snapshot_refuted`
`BarCentral_Props.v`: `central_separated`, `central_progress`
`BarComb_Props.v`: `comb_separated_tree`, `comb_progress_tree`, `comb_build`, `comb_separated_partial`, `comb_progress_partial`, `comb_separated_refuted`
`BarDissem_Props.v`: `dissem_separated_partial`, `dissem_progress_partial`, `dissem_separated_refuted`
`BarMcs_Props.v`: `mcs_separated_partial`, `mcs_progress_partial`, `mcs_progress_refuted`
`BarTourn_Props.v`: `tourn_separated_partial`, `tourn_progress_partial`, `tourn_in_bounds_partial`, `tourn_init_partial`, `tourn_init_refuted`, `tourn_init_bounds_refuted`, `tourn_separated_refuted`
`Bitmap_Props.v`: `bitmap_history_partial`, `bitmap_history_refuted`, `bitmap_iterate_refuted`, `bitmap_union_pointwise_refuted`, `bitmap_init`, `bitmap_set`, `bitmap_reset`, `bitmap_bts`, `bitmap_test`, `bitmap_empty`, `bitmap_full`, `bitmap_count`, `bitmap_count_intersect`, `bitmap_iterate_partial`, `bitmap_union`, `bitmap_intersection`, `bitmap_intersection_negate`, `bitmap_clear`
`BrLock_Props.v`: `brlock_legal`, `brlock_exclusion`, `brlock_list`
`ByteLock_Props.v`: `bytelock_legal_partial`, `bytelock_unslotted_refuted`
`Cc_Props.v`: `cc_ffs_correct`, `cc_ctz_correct`, `cc_popcount_correct`
`Cohort_Props.v`: `cohort_legal`, `cohort_quiet_free_partial`, `cohort_quiet_passed_partial`, `cohort_trylock_leaves_global_refuted`, `cohort_locked_refuted`, `cohort_locked_partial`, `cohort_passes_bounded`, `cohort_pass_decision`
`EcTime_Props.v`: `ec_add_ns`, `ec_add`, `ec_add_invalid`, `ec_cmp`, `ec_check_deadline`, `ec_deadline`, `ec_scale`, `ec_scale_wide_refuted`, `ec_backoff_ends_partial`, `ec_backoff_default`, `ec_backoff_ends_refuted`
`EcTso_Props.v`: `ec_sp_tso_counts`, `ec_sp_tso_wait_success_partial`, `ec_sp_tso_no_lost_wakeup_partial`, `ec_sp_tso_no_lost_wakeup_refuted`
`Ec_Props.v`: `ec_counts`, `ec_sleep_unchanged`, `ec_no_lost_wakeup`, `ec_wait_success_partial`, `ec_wait_success_refuted`
`ElideNone_Props.v`: `elide_none_protects_refuted`, `elide_none_trylock_fails`, `elide_none_protects_partial`
`ElideRw_Props.v`: `elide_rw_protects`, `elide_rw_no_fault`, `elide_rw_closed_refuted`, `elide_rw_discarded`, `elide_rw_closed_partial`
`ElideSpin_Props.v`: `elide_spin_protects`, `elide_spin_closed`
`Elide_Props.v`: `elide_adapts_refuted`, `elide_static`, `elide_adapts_partial`, `elide_skips`, `elide_skips_end`, `elide_spin_bounded_partial`, `elide_spin_bounded_refuted`, `elide_spin_free`, `elide_success_resets`
`Epoch_Props.v`: `epoch_synchronize_partial`, `epoch_synchronize_refuted`, `epoch_grace_partial`, `epoch_grace_refuted`, `epoch_run_once`, `epoch_barrier`, `epoch_pending_count`, `epoch_peak_refuted`, `epoch_advertised_partial`, `epoch_advertised_refuted`, `epoch_end_plain_partial`, `epoch_end_bucket_partial`, `epoch_end_refuted`, `epoch_strict_refuted`, `epoch_strict_partial`
`FifoMp_Props.v`: `fifo_mpmc_linearizable`
`FifoSp_Props.v`: `fifo_spsc_linearizable`, `fifo_spsc_recycle_once`, `fifo_spsc_no_stuck`
`Helpers_Props.v`: `internal_log_pow2`, `internal_log_floor_refuted`, `internal_power_2_least`, `internal_power_2_zero`, `internal_max`, `cc_ffs`, `cc_ctz`, `cc_popcount`, `backoff_step`, `backoff_bounded_partial`, `backoff_never_exceeds_refuted`, `backoff_saturates`
`HpFifo_Props.v`: `hp_fifo_linearizable_partial`, `hp_fifo_accesses_live_partial`, `hp_fifo_hazards_partial`, `hp_fifo_memory_partial`, `hp_fifo_trydequeue_refuted`
`HpStack_Props.v`: `hp_stack_linearizable`, `hp_stack_accesses_live`, `hp_stack_failures`, `hp_stack_hazards`
`Hp_Props.v`: `hp_protected_not_destroyed`, `hp_published_then_unretired`, `hp_destroy_outstanding`, `hp_records_exclusive`, `hp_destroyed_at_most_once`, `hp_destroyed_or_pending`, `hp_pending_list`, `hp_purge_empties`, `hp_purge_empties_refuted`, `hp_reentrant_destroy_refuted`
`HsConc_Props.v`: `hs_concurrent`, `hs_concurrent_present`, `hs_concurrent_absent`
`Hs_Props.v`: `hs_semantics`, `hs_no_null_store`, `hs_returns`, `hs_maintenance`, `hs_iteration_count`, `hs_stat_tombstones_refuted`, `hs_stat_uninitialised_refuted`
`HtConc_Props.v`: `ht_concurrent_partial`, `ht_pair_partial`, `ht_torn_refuted`
`HtPack_Props.v`: `ht_pack_roundtrip_partial`, `ht_pack_length_iff`, `ht_pack_hash_iff`, `ht_pack_special_iff`, `ht_pack_roundtrip_refuted`
`Ht_Props.v`: `ht_semantics_partial`, `ht_put_no_tombstones`, `ht_put_refuted`, `ht_alias_refuted`, `ht_no_null_store`, `ht_returns`, `ht_maintenance_partial`, `ht_iteration_count_partial`, `ht_grow_refuted`
`LockFree_Props.v`: `stack_lock_free`, `stack_try_wait_free`, `fifo_mpmc_lock_free`, `fifo_mpmc_try_wait_free`, `hp_stack_lock_free`, `hp_stack_try_wait_free`, `hp_fifo_lock_free_partial`, `ring_sp_wait_free`, `ring_sc_wait_free`, `ring_trydequeue_wait_free`, `ring_mc_lock_free`, `ring_mp_unwaited_lock_free`, `ring_mp_enqueue_blocks`
`PfLock_Props.v`: `pflock_legal`, `pflock_writer_can_acquire`, `pflock_reader_can_acquire`, `pf_exclusion`, `pf_writer_order`, `pf_reader_waits_one_phase`
`Pr_Props.v`: `pr_linearizable_partial`, `pr_defined_partial`, `pr_returns_partial`, `pr_inc_ptr_zero_refuted`, `pr_inc_ptr_wrap_refuted`, `pr_int_overflow_refuted`
`Queue_Props.v`: `queue_macro_partial`, `slist_remove_prevptr_refuted`, `queue_history_partial`, `queue_foreach`, `queue_foreach_from`, `queue_foreach_from_null`, `slist_foreach_prevptr`, `queue_empty`, `queue_readers`, `queue_reader_visits_all`, `queue_reader_visits_only`, `queue_reader_ends`, `queue_writer_steps`, `queue_writer_ends`, `queue_quiet_memory`
`RhsConc_Props.v`: `rhs_concurrent`, `rhs_concurrent_absent`, `rhs_concurrent_present_partial`, `rhs_concurrent_present_refuted`
`Rhs_Props.v`: `rhs_semantics_partial`, `rhs_get`, `rhs_no_null_partial`, `rhs_iteration_count_partial`, `rhs_put_loses_member_refuted`, `rhs_remove_hides_member_refuted`, `rhs_fas_lost_update_refuted`, `rhs_apply_count_refuted`
`RingBytes_Props.v`: `ring_bytes_apart_iff`, `ring_bytes_fifo_partial`, `ring_bytes_fifo_refuted`
`RingMix_Props.v`: `ring_mixed_linearizable`, `ring_mixed_failures`, `ring_mixed_quiescent`
`RingMp_Props.v`: `ring_mpmc_linearizable`, `ring_mpmc_failures`, `ring_short_calls`, `ring_mpmc_quiescent`, `ring_mp_valid_partial`, `ring_mp_valid_refuted`
`RingSp_Props.v`: `ring_spsc_linearizable`, `ring_spsc_lin_points`, `ring_spsc_size`, `ring_sp_valid_refuted`, `ring_sp_repair_refuted`, `ring_sp_valid_partial`, `ring_sp_repair_resets`
`RwCohort_Props.v`: `rwcohort_legal_partial`, `rwcohort_neutral_legal`, `rwcohort_mixed_refuted`
`RwLockRec_Props.v`: `rwrec_legal`, `rwrec_writer_can_acquire`, `rwrec_reader_can_acquire`
`RwLock_Props.v`: `rwlock_legal`, `rwlock_writer_can_acquire`, `rwlock_reader_can_acquire`, `rw_exclusion`
`Sequence_Props.v`: `sequence_consistent`, `sequence_refused`, `sequence_loop`
`SpinAnderson_Props.v`: `anderson_fcfs`, `anderson_no_stuck`, `anderson_locked_exact_pow2_partial`, `anderson_locked_refuted`
`SpinCas_Props.v`: `cas_legal`, `cas_no_stuck`
`SpinClh_Props.v`: `clh_fcfs`, `clh_no_stuck`, `clh_locked`, `clh_node_exclusive`
`SpinDec_Props.v`: `dec_legal`, `dec_no_stuck`, `dec_bound_tight`
`SpinFas_Props.v`: `fas_legal`, `fas_no_stuck`
`SpinHclh_Props.v`: `hclh_mutual_exclusion`, `hclh_cluster_fcfs`, `hclh_no_stuck`, `hclh_node_exclusive`, `hclh_unlock_total`
`SpinMcs_Props.v`: `mcs_fcfs`, `mcs_no_stuck`, `mcs_unlock_no_stuck`, `mcs_trylock_truthful`
`SpinTicket_Props.v`: `ticket_fcfs`, `ticket_no_stuck`, `ticketg_fcfs`, `ticketg_no_stuck`, `fcfs_mutex`, `fcfs_order`
`StackNp_Props.v`: `stack_np_linearizable`, `stack_np_drain`
`Stack_Props.v`: `stack_upmc_linearizable`, `stack_upmc_failures`, `stack_mpmc_linearizable_partial`, `stack_mpmc_failures_partial`, `stack_short_calls`, `stack_mpmc_batch_refuted`
`SwLock_Props.v`: `swlock_legal`, `swlock_count`, `swlock_writer_can_acquire`, `swlock_reader_can_acquire`
`SwLocked_Props.v`: `swlock_locked_writer_iff`, `swlock_locked_iff`, `swlock_locked_reader_partial`, `swlock_locked_reader_refuted`
`TfLock_Props.v`: `tflock_legal`, `tflock_can_acquire`, `tf_exclusion`, `tf_task_fair`
`TsoAnderson_Props.v`: `anderson_tso_fcfs`, `anderson_tso_progress`
`TsoBar_Props.v`: `central_tso_separated`, `central_tso_data`, `central_tso_progress`
`TsoClh_Props.v`: `clh_tso_fcfs`, `clh_tso_progress`
`TsoDec_Props.v`: `dec_tso_protects`, `dec_tso_progress`
`TsoDissemD_Props.v`: `dissem_tso_data`, `dissem_tso_data_separated`
`TsoDissem_Props.v`: `dissem_tso_separated`, `dissem_tso_progress`
`TsoEpoch_Props.v`: `epoch_tso_safe`, `epoch_tso_once`, `epoch_tso_call_refuted`
`TsoFifoMp_Props.v`: `fifo_mpmc_tso_linearizable`, `fifo_mpmc_tso_memory`
`TsoFifoSp_Props.v`: `fifo_spsc_tso_legal`, `fifo_spsc_tso_order`, `fifo_spsc_tso_recycle`, `fifo_spsc_tso_drained`, `fifo_spsc_tso_no_stuck`
`TsoHp_Props.v`: `hp_tso_safe`, `hp_tso_free_refuted`
`TsoHs_Props.v`: `hs_tso_lookup`, `hs_tso_order`, `hs_tso_fence`, `hs_tso_fenced_lookup`, `hs_tso_unfenced_refuted`
`TsoHt_Props.v`: `ht_tso_lookup_partial`, `ht_tso_order`, `ht_tso_fence`
`TsoMcs_Props.v`: `mcs_tso_fcfs`, `mcs_tso_progress`
`TsoRhs_Props.v`: `rhs_tso_lookup`, `rhs_tso_order`, `rhs_tso_fence`, `rhs_tso_fenced_lookup`
`TsoRing_Props.v`: `ring_tso_fifo`, `ring_tso_drained`
`TsoRw_Props.v`: `rw_tso_protects`
`TsoRwf_Props.v`: `pf_tso_fair`, `pf_tso_protects`, `pf_tso_writer_can_acquire`, `pf_tso_reader_can_acquire`, `tf_tso_fair`, `tf_tso_protects`, `tf_tso_can_acquire`, `sw_tso_protects`
`TsoSeq_Props.v`: `sequence_tso_consistent`, `sequence_tso_drained`
`TsoSpin_Props.v`: `spin_tso_protects`, `spin_tso_progress`
`TsoStack_Props.v`: `stack_upmc_tso_linearizable`, `stack_upmc_tso_failures`, `stack_mpmc_tso_linearizable`, `stack_mpmc_tso_failures`, `stack_tso_visible`
`TsoTicket_Props.v`: `ticket_tso_fcfs`, `ticketg_tso_fcfs`, `ticket_tso_progress`, `ticketg_tso_progress`
