# Formal model of ibraheemdev/papaya in Rocq (Coq 8.16.1)

Contents: 1 model, 2 simplifications, 3 properties, 4 proof architecture and file map, 5 findings, 6 trusted base, 7 mutation tests.

## 1. What is modelled

`rocq/theories/` contains an executable small-step model of `src/raw/mod.rs` (all map operations, the two resize
protocols, deferred reclamation, drop), `src/raw/alloc.rs`, `src/raw/probe.rs`,
`src/raw/utils/{counter,parker,stack,tagged}.rs`, and of the API layers `src/map.rs`, `src/set.rs`, `src/serde_impls.rs`.

* **Programs** (`Prog.v`, `Model.v`). Every Rust function of `src/raw/mod.rs` is a value of `prog A` (`Ret`, `Act` = one atomic
  access, `Loop` = a Rust `loop`, `Fail` = panic). One `Act` is one atomic memory access (load / store / CAS / fetch_add),
  one dereference of an entry, or one short mutex-protected critical section of the parker. Every definition cites
  the lines it models.
* **Machine** (`Machine.v`). A configuration is the shared state, one program per thread, and the history. A *schedule* is
  an arbitrary list of choices: create a guard, drop a guard, invoke any operation on any idle thread that holds a guard,
  run one access of any thread (with an oracle bit for spurious failures of weak CAS and for spurious wake-ups), free
  any retired object that the reclaimer may free. This is the most general client: theorems quantify over all schedules, thread
  counts, hash functions, initial capacities, counter-shard counts, chunk sizes, closures and predicates.
  Undefined behaviour (access to a freed entry or table, out-of-bounds slot, double retirement, a dangling result) makes
  `exec` return `None`.
* **History.** Invocations, responses (with the values read through the returned references), panics, guards. That is what a user sees.
  `Spec.v` defines the sequential map and Herlihy-Wing linearizability; `Props.v` states the history-level properties
  without any reference to the implementation.
* **Clients** (`Client.v`): `==`, `extend`, `from_iter`, `clone`, serde, the set API, as programs over the API.
* **Several maps** (`Guards.v`): guards of one map handed to another, the collector check.
* **Stand-alone models**: `StackModel.v` (utils/stack.rs at pointer level), `ParkerModel.v` (utils/parker.rs), `Words.v` (entry words and
  addresses, `Entry` layout, `insert`/`get` on machine words), `Layout.v` (alloc.rs: layout of a table with wrapping arithmetic),
  `Weak.v` (publication of entries and tables over release/acquire memory), `WeakParker.v` (utils/parker.rs over weak memory with SeqCst), `WeakMap.v`, `WeakMapProof.v`, `WeakMapMain.v` (the
  operations on one key with incremental resizing over release/acquire memory), `WeakBlk.v`, `WeakBlkProof.v`, `WeakBlkMain.v` (the
  protocol of blocking resizing over release/acquire memory), `WeakLen.v` (utils/counter.rs with relaxed accesses), `WeakStack.v` (utils/stack.rs with relaxed accesses).
* **Drop** (`DropModel.v`): `Drop for HashMap`, draining of deferred entries, the collector's final reclamation.

Not modelled: `src/raw/utils/mod.rs` provenance shims, `Debug` impls, `HashMapRef`/`OwnedGuard`
wrappers (they forward to the modelled calls; `verify` is in `Guards.v`), the byte format of serde, the builder's setters (the
configuration is a parameter), allocation failure, `isize::MAX` overflow inside the machine (`entries_for` on 64-bit
words is treated in `PropArith.v`).

## 2. Simplifications (also stated at each definition)

* Memory model: sequentially consistent interleaving of atomic accesses. The linearizability and progress theorems
  do not take the orderings (Acquire/Release/Relaxed) into account. The models of C50, C51, C53, C54, C59, C60 and C61 do: `WeakMap.v` proves that one key behaves like one atomic
  variable across incremental resizes (per-key coherence, no lost update; C54), `WeakBlk.v` that a blocking resize loses no write and
  that whoever uses the new table knows all of the old one (C59), `WeakParker.v` that no wakeup is lost (C53), `WeakLen.v` which updates a `len` counts (C60), `WeakStack.v` that the deferred stack is drained correctly and without data races (C61), and `Weak.v` treats publication: with the orderings in the code, pointers obtained
  from the map lead to initialised objects (C50) and a finished resize is seen with all its copies (C51); there SeqCst is weakened to AcqRel. A bug of another
  kind that is caused only by a too weak ordering (in sweeps or in the reclamation of seize) is outside the model.
* Allocation: an entry gets its identity (index in `heap`) when a successful CAS publishes it; a table when it is published.
  Private allocations that are never published are not part of the state.
* Reclamation: seize is represented by its contract: an object retired while a thread is pinned is not freed before that thread
  unpins; otherwise it may be freed at any later time, by any thread. Dropping a table retires its deferred entries, which are
  freed in a later step (`reclaim`).
* Keys: a type with decidable equality; `Equivalent` queries are keys; `Hash` is an arbitrary function to `N`. An element of the type K
  stands for a class of equal keys; where the stored representative matters (C39) it is carried in the value (`V = R * W`).
* Entry words: an optional entry number and three tag bits. `C23_encoding_faithful` relates them to machine words, for 8-aligned addresses of entries; whether
  these are 8-aligned is C48.
* User closures are pure functions; how often compute calls its closure is tracked (`cstate`).
* Closures given to `compute` may panic at any call (`OpPanic`); the closures of `update`, `get_or_insert_with`, `update_or_insert_with`, ... are taken
  total when called through their own `op`, a panicking one is an `OCompute` whose closure is `OpPanic` at that point (that is how src/map.rs implements
  them). A panicking thread drops its guard and its thread id takes no further step; a program that goes on after `catch_unwind` is another thread id of
  the model. Panics of `remove_if`/`retain` predicates, of `Hash`/`Eq` and of the allocator are not modelled; panics of the code itself (`assert!`,
  `unwrap`, poisoned lock, `panic!`) are.
* `usize` is `nat`/`N` without wrap-around unless stated (counters are `Z`).
* Spin counts of the waiting loops are parameters of the configuration.
* `resize lock` poisoning after a panic inside the critical section is modelled (`LPoisoned`).

## 3. Properties

`properties.jsonl` has the full statements. Status `partial` with "refuted" means that the property as stated is false of the code:
the theorem named `..._refuted` exhibits a reachable execution of the model; other theorems named there are what does hold.

<!-- table -->
| id | property | status | theorems | model and method |
|----|----|----|----|----|
| C01 | Linearizability of single-key operations, incremental resizing | proved | `C01_linearizable`, `C01_C02_linearizable` | machine of Machine.v (any number of threads, all schedules); invariant Inv + ghost log; linearization built in IncMach7 |
| C02 | Linearizability of single-key operations, blocking resizing | proved | `C02_linearizable_blocking`, `C01_C02_linearizable` | machine of Machine.v (any number of threads, all schedules); invariant Inv + ghost log; linearization built in IncMach7 (BlkInv, BlkSteps*, BlkRules) |
| C03 | Sequential map semantics | proved | `C03_sequential_semantics` | history predicate in Props.v, derived from C01/C02 (Derive, PropsProofs*) |
| C04 | No entry is lost or resurrected by a resize | proved | `C04_reads_last_write` | history predicate in Props.v, derived from C01/C02 (Derive, PropsProofs*) |
| C05 | try_insert has a unique winner | proved | `C05_unique_winner`, `C05_C09_tries_agree` | history predicate in Props.v, derived from C01/C02 (Derive, PropsProofs*) |
| C06 | An inserted entry is removed by at most one call | proved | `C06_handed_out_once`, `C06_removed_once` | history predicate in Props.v, derived from C01/C02 (Derive, PropsProofs*) |
| C07 | update / compute never lose an update | proved | `C07_counts_updates`, `C07_update_is_atomic` | history predicate in Props.v, derived from C01/C02 (Derive, PropsProofs*) |
| C08 | compute calls its closure with None at most once | proved | `C08_none_at_most_once`, `C08_closure_sees_current_bindings` | history predicate in Props.v, derived from C01/C02 (Derive, PropsProofs*) |
| C09 | get_or_insert callers agree | proved | `C05_C09_tries_agree` | history predicate in Props.v, derived from C01/C02 (Derive, PropsProofs*) |
| C10 | len is exact at quiescence | proved | `C10_len_exact` | counter invariant (LenCount, LenRun) |
| C11 | Iteration sees every untouched entry exactly once | proved | `C11_iteration_complete`, `C36_duplicates_need_removal` | history predicate in Props.v, derived from C01/C02 (Derive, PropsProofs*) |
| C12 | Iteration yields only real entries | proved | `C12_iteration_yields_real_entries` | history predicate in Props.v, derived from C01/C02 (Derive, PropsProofs*) |
| C13 | clear removes everything present when it starts | proved | `C13_C14_swept`, `C13_C14_sweeps_all_keys` | history predicate in Props.v, derived from C01/C02 (Derive, PropsProofs*) |
| C14 | retain removes exactly the rejected entries | proved | `C13_C14_swept`, `C13_C14_sweeps_all_keys` | history predicate in Props.v, derived from C01/C02 (Derive, PropsProofs*) |
| C15 | References stay valid while the guard is held | proved | `C15_no_undefined_behaviour`, `C15_references_stay_valid` | safety and reclamation clauses of the machine invariant |
| C16 | Every entry is released exactly once | proved | `C16_drop_frees_every_entry_once`, `C16_incremental_drop_frees_everything`, `C16_incremental_drop_safe_after_panic`, `C16_aborted_table_leaks_refuted`, `C16_double_free_after_panic_refuted` | Drop of the map modelled in DropModel; Drop.v + Marks*.v (no half-copied entry between calls) |
| C17 | Parked threads are woken (entry copies) | proved | `C17_no_lost_wakeup`, `C17_wakeup_on_its_way`, `C17_pending_never_negative`, `C17_park_returns_only_when_released` | stand-alone transition system of Parker (ParkerModel), invariant by induction on schedules |
| C18 | Threads waiting for an aborted blocking resize are woken | partial (refuted, see section 5) | `C18_lost_wakeup_refuted` | explicit schedule, evaluated by the kernel; deadlock is a configuration, checked for every thread |
| C19 | Operations do not panic | partial (refuted, see section 5) | `C19_panics_partial`, `C19_panics_any_capacity_partial`, `C19_non_power_of_two_capacity_refuted`, `C19_poisoned_lock_refuted` | panic clause of the machine invariant; two explicit schedules |
| C20 | Capacity guarantees | proved | `C20_entries_for_load`, `C20_entries_for_u64`, `C20_never_below_initial`, `C20_reserve`, `C20_never_below_capacity` | arithmetic (PropArith) and machine level: solo partial-correctness logic (Reserve), size invariant by a pure program logic (Capacity) |
| C21 | Probe sequence stays in bounds and can reach every slot | proved | `C21_probe_in_bounds`, `C21_probe_permutation`, `C21_alloc_is_pow2` | arithmetic on N, all table sizes |
| C22 | Hash metadata never collides with the sentinels | proved | `C22_h2_not_sentinel` | arithmetic on N |
| C23 | Pointer tagging round-trips | proved | `C23_tag_roundtrip`, `C23_word_decomposes`, `C23_encoding_faithful` | arithmetic on N; faithful encoding of the model's entry words by machine words (Words) |
| C24 | A resize in blocking mode terminates | partial (refuted, see section 5) | `C24_insert_never_returns_refuted` | lockstep simulation of the infinite run (Livelock) |
| C25 | Reads in blocking mode are wait-free | proved | `C25_get_wait_free`, `C25_iter_next_wait_free` | decreasing measure on programs, all schedules (WaitFree) |
| C26 | Map equality means same contents | proved | `C26_eq`, `C01_C02_explained` | client program over the API (Client), run on the machine |
| C27 | extend / from_iter / collect: last write wins | proved | `C27_extend`, `C27_from_iter` | client program |
| C28 | clone yields an equal, independent map | proved | `C28_clone`, `C33_each_map_runs_alone` | client program, several maps (Guards) |
| C29 | serde round-trip | proved | `C29_round_trip` | client program |
| C30 | HashSet semantics | proved | `C30_set`, `C30_set_eq` | set operations = map operations with unit values (Client) |
| C31 | Reads of one thread never go back in time | proved | `C31_reads_monotone`, `C31_real_time_order` | history predicate in Props.v, derived from C01/C02 (Derive, PropsProofs*) |
| C32 | The deferred-retirement stack loses and duplicates nothing | proved | `C32_stack` | stand-alone transition system (StackModel) |
| C33 | Guards of another map are rejected | proved | `C33_wrong_guard_rejected`, `C33_own_guard_accepted`, `C33_each_map_runs_alone`, `C33_no_undefined_behaviour` | machine with several maps (Guards) |
| C34 | Incremental chunk size may be any number | partial (refuted, see section 5) | `C34_zero_chunk_iter_never_returns_refuted`, `C34_zero_chunk_reachable_refuted` | lockstep simulation of the infinite run |
| C35 | Failed try_insert changes nothing and returns both values | proved | `C35_try_insert` | history predicate in Props.v, derived from C01/C02 (Derive, PropsProofs*) |
| C36 | Iterators may be consumed with duplicates only under concurrent modification | partial | `C36_duplicates_need_removal`, `C36_duplicate_key_refuted` | history predicate in Props.v, derived from C01/C02 (Derive, PropsProofs*) |
| C37 | The allocation lock cannot deadlock | proved | `C37_holder_never_waits`, `C37_no_lock_deadlock`, `C37_lock_released`, `C37_one_next_table` | ownership logic for the allocation lock (Locks) |
| C38 | remove_if removes only when the predicate accepts the removed value | proved | `C38_remove_if` | history predicate in Props.v, derived from C01/C02 (Derive, PropsProofs*) |
| C39 | Inserting over an equal key keeps the stored key | partial (refuted, see section 5) | `C39_insert_replaces_key`, `C39_old_key_kept_refuted` | Main3 + explicit schedule |
| C40 | Whole-map operations return when nobody interferes | partial (refuted, see section 5) | `C40_iter_never_returns_refuted`, `C34_zero_chunk_iter_never_returns_refuted` | lockstep simulation of the infinite run (Livelock, LivelockEx) |
| C41 | Single-key operations are obstruction-free with incremental resizing | proved | `C41_obstruction_free`, `C41_single_key_ends`, `C41_single_key_returns`, `C41_sweeps_end` | total-correctness logic for one thread running alone (Solo*) |
| C42 | No deadlock with incremental resizing | proved | `C42_no_deadlock`, `C42_no_deadlock_pow2`, `C42_stuck_means_done` | ghost state per thread (slots it copies, what it waits for, whom it must wake), global invariant, program logic (Dead*) |
| C43 | A repeated key in an iteration means it was removed in between | proved | `C36_duplicates_need_removal` | history predicate in Props.v (PropsProofs*) |
| C44 | The only panics are the documented one and those of the caller's closure (power-of-two capacity) | proved | `C44_only_documented_panic` | corollary of the machine invariant (Main1, Main4) |
| C45 | Every public method does what its documentation says | proved | `C45_methods_atomic`, `C45_methods_sequential`, `C45_keys_values` | wrappers modelled in Api.v; documented behaviour as a relation doc; corollary of the linearization |
| C46 | The shared counters of a resize never overflow or underflow | proved | `C46_counters_bounded`, `C46_copied_bounded` | program logic with one ghost value per thread over all programs (Counters); copied: counting invariant of Dead1 |
| C47 | A call that panics has no effect | proved | `C47_panicked_call_has_no_effect`, `C47_erasable`, `C47_reads_unaffected` | clause l_panic of the linearization (panicked ids own no atom); erasure of the panicked calls from the history (Panics) |
| C48 | Entries of every key and value type can be stored | partial (refuted, see section 5) | `C48_aligned_types_partial`, `C48_aligned_allocator_partial`, `C48_insert_then_get_partial`, `C48_small_alignment_refuted`, `C48_zero_size_refuted`, `C48_unit_set_loses_its_element_refuted` | layout of Entry<K,V>, addresses a Box may have; insert and get on machine words (Words) |
| C49 | The table layout is memory safe | partial (refuted, see section 5) | `C49_layout_sound_64`, `C49_layout_sound_checked`, `C49_layout_32bit_refuted` | arithmetic of alloc.rs with wrapping usize (Layout) |
| C50 | Published objects are initialised, also on weakly ordered machines | proved | `C50_published_objects_initialised` | release/acquire view machine with the orderings of the code, most general client; invariant on messages (Weak) |
| C51 | Whoever sees a finished resize sees every copied entry, also on weakly ordered machines | proved | `C51_finished_resize_seen`, `C51_promoted_status_seen`, `C51_promotion_complete` | same machine; invariant: the views of copy counter, status and root include every copy (Weak) |
| C52 | Blocking mode does not deadlock unless a resize is given up | proved | `C52_no_deadlock_without_abort`, `C52_no_deadlock_pow2`, `C52_stuck_means_done` | the invariant of C42 without its parts on single entries, for runs without aborted tables (BDead1-BDead6, BDeadMain) |
| C53 | No lost wakeup with the memory orderings of the code | proved | `C53_no_lost_wakeup`, `C53_quiet`, `C53_woken_returns`, `C53_park_happens_before`, `C53_pending_never_negative` | the parker over view-based memory with SeqCst accesses; refinement of ParkerModel except for the stale fast path (WeakParker) |
| C54 | One key behaves like one atomic variable, also on weakly ordered machines | proved | `C54_reads`, `C54_writes`, `C54_one_writer`, `C54_program_order`, `C54_synchronised` | release/acquire view machine of one key across probing and nested incremental resizes; invariant relating each thread's view to the log of writes (WeakMap, WeakMapProof, WeakMapMain) |
| C55 | Reads never wait for other threads | proved | `C55_reads_do_not_wait`, `C55_alone` | total-correctness logic for programs under arbitrary interference, infinite schedules (NoWait) |
| C56 | Blocking calls that run alone end or allocate without bound | proved | `C56_ends_or_allocates_idle`, `C56_no_alloc_ends_idle`, `C56_ends_or_allocates`, `C56_no_alloc_ends` | total-correctness logic for one thread running alone with an escape (SoloX), blocking operations (SoloB, SoloB2), reachable idle states (SoloBMain) |
| C57 | Incremental-mode calls that run alone end or allocate without bound | proved | `C57_ends_or_allocates` | total-correctness logic for one thread running alone with an escape and with the reachable-state invariant of incremental resizing assumed at every step (SoloG); the copied and claim counters of an idle state account for each other (Dead6), so helping a resize to its end always promotes it (SoloC, SoloC2, SoloCMain) |
| C58 | With blocking resizing no resize outlives the calls that work on it | proved | `C58_no_unfinished_resize`, `C58_no_unfinished_resize_any_capacity` | program logic with one piece of auxiliary state per thread: the table whose resize the call has begun (Owe); every table but those before the root is owed by a running call (OweMain) |
| C59 | Blocking resizes lose no write, also on weakly ordered machines | proved | `C59_no_write_lost`, `C59_copy_known`, `C59_copied_once`, `C59_complete`, `C59_aborted`, `C59_entry_known`, `C59_forward` | release/acquire view machine of help_copy_blocking, copy_at_blocking and try_promote with concurrent writers and aborted tables; a structural invariant (who holds which slot, what is counted, which tables are aborted) and one on views: whoever knows root n knows the frozen last word of every slot of the table before and its copy (WeakBlk) |
| C60 | len counts what happened before it, also on weakly ordered machines | proved | `C60_len`, `C60_exact`, `C60_growing`, `C60_shrinking` | view-based machine of the sharded counter; invariant: what a thread or a finished call of len has read is at least what the events that happen before it have read or written (WeakLen) |
| C61 | The deferred-retirement stack is correct with relaxed accesses | proved | `C61_drain`, `C61_no_race`, `C61_only_pushed` | view-based machine of the stack, nodes with version numbers; invariant: the messages of the head form the chain of pushed nodes, a thread knows the last version of every node whose push it knows (WeakStack) |
<!-- /table -->

Beside the theorems, `Examples2.v`, `Examples3.v`, `Examples4.v`, `DropEx.v`, `SoloEx.v`, `DeadMain.v`, `CapacityEx.v`, `Main4.v` contain concrete executions (resizes in
progress, concurrent calls, both modes) that meet the hypotheses.

## 4. Proof architecture

* **Safety and linearizability.** `Logic.v`: rely-guarantee logic for `prog`, by recursion on programs, with loop invariants.
  `Core.v`/`Side.v`: the state split into the part that matters for linearizability and the reclamation bookkeeping.
  `Log.v`: ghost log of successful writes. `IncInv.v` (incremental) and `BlkInv.v` (blocking): global invariants;
  `IncSteps*.v`, `BlkSteps*.v`: every kind of atomic step preserves them. `IncGen.v`: common interface of both modes.
  `IncWorld.v`, `IncLift*.v`: full invariant (with pins, retired objects, freed objects). `IncRules*.v`, `BlkRules.v`: one rule per primitive.
  `IncProg*.v`: one specification per Rust function. `IncOp.v`: one per API call. `IncMach*.v`: invariant of the machine, and
  the construction of the linearization. `Main1.v`: C01, C02, C15, C19. `Main2.v`: history-level properties. `Main3.v`: clients.
* **Liveness-like results.** `WaitFree.v` (C25), `Locks.v` (C37), `Solo*.v` (C41: a total-correctness logic for a thread that runs alone,
  without spurious CAS failures), `Dead*.v` (C42: what each running call holds; if every call waits, the invariant is contradictory),
  `Livelock.v` (non-termination by lockstep simulation).
* **Between calls.** `Marks*.v`: entries marked as being copied are being taken care of by a running call; used for drop and C41.
* **Drop.** `Drop.v`: every entry that was ever published is freed exactly once by the time the map is gone.

## 5. Findings (behaviours of the code that contradict a listed property or the documentation)

1. C18: in blocking mode a copier that gives up a resize wakes the waiters of the wrong parker; a helper of the aborted resize sleeps
   for ever (`C18_lost_wakeup_refuted`, a reachable configuration in which no running thread can step). Incremental mode has no deadlock (C42), nor has blocking mode without aborted resizes (C52).
2. C19: `with_capacity(5)` allocates 8 slots but remembers 5 as the initial capacity; after removals a resize asks for a table of 5
   slots and `insert` panics on the power-of-two assertion; later inserts panic on the poisoned lock. The same holds for
   every non-power-of-two capacity from 5 on, hence also for `clone`, `from_iter`, `collect`, deserialization (they call `with_capacity`).
3. C24, C40: with enough keys of equal hash, `insert` in blocking mode (31 keys, 64 slots) and `iter` in incremental mode
   (37 keys, chunk 64) resize to equally sized tables for ever, even when running alone. Single-key calls in incremental mode always return (C41).
4. C34: `ResizeMode::Incremental(0)` makes `iter`/`clear`/`retain`/`reserve` loop for ever once a resize has started.
5. C36: an iterator can yield a key twice if the key is removed and inserted again in a slot ahead (only then: `C36_duplicates_need_removal`).
6. C39: the documentation says that `insert` does not replace an equal key; the code replaces the whole entry.
7. C16: in blocking mode the table of an aborted resize is never freed (its memory leaks; entries do not). After a panic inside a resize (finding 2)
   in blocking mode, dropping the map frees an entry twice (`C16_double_free_after_panic_refuted`). Incremental mode is not affected.
   When a `compute` closure panics on a retry, the entry allocated for the earlier attempt (`LazyEntry::Init`, src/raw/mod.rs:1336-1379, 1523-1536) is
   leaked: nothing drops it (harmless for safety; C16's no-leak theorem assumes no call panicked).
8. C48: `Entry<K, V>` is `repr(C)` without `align(8)` although three tag bits live in its address. For zero-sized entries (`HashSet<()>`,
   `HashMap<(), ()>`) the address is 1, which unpacks to null: after `insert(())` returned true, `contains(&())` is false and `insert(())` returns true
   again (`C48_unit_set_loses_its_element_refuted`). For byte-aligned types correctness depends on the allocator returning multiples of 8.
9. C49: on 32-bit targets in release builds `with_capacity(n)` for n from 402653185 to 536870911 computes a table of 2^30 slots whose size wraps around:
   the allocation has 1 GiB instead of 5, every entry pointer lies outside of it (`C49_layout_32bit_refuted`).
10. `clone` does not keep the resize mode of the original (observation; the clone is equal and independent, C28).

## 6. Trusted base

* Coq's kernel (8.16.1), including `vm_compute` conversion (used to evaluate the concrete schedules of the examples and refutations).
* Axioms: none. `Print Assumptions` of every theorem named in MANIFEST.json prints "Closed under the global context"
  (`Audit.v` prints, at build time, the assumptions of the tuple of all of them); the only axioms in the loaded environment are those of the ssreflect library file `Coq.ssr.ssrunder`, which no theorem uses.
* The libraries used: Coq's standard library and std++ (definitions and proofs, no axioms).
* The fidelity of the model as described in sections 1 and 2.

## 7. Mutation tests

`tools/mutate.py` applies edits of the model (realistic bugs) in a scratch copy and rebuilds; `seeded/LOG.jsonl` records, for each edit, the
claim that it breaks and the theorems that failed.
