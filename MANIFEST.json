{
 "claims": [
  {
   "property": "C01",
   "status": "proved",
   "theorems": [
    "C01_linearizable",
    "C01_C02_linearizable"
   ],
   "note": "incremental mode, any chunk size, any hash function, any thread count and schedule"
  },
  {
   "property": "C02",
   "status": "proved",
   "theorems": [
    "C02_linearizable_blocking",
    "C01_C02_linearizable"
   ],
   "note": "blocking mode, any hash function, any thread count and schedule, aborted resizes included"
  },
  {
   "property": "C03",
   "status": "proved",
   "theorems": [
    "C03_sequential_semantics"
   ],
   "note": "both resize modes, any hash function, any chunk size, any thread count and schedule"
  },
  {
   "property": "C04",
   "status": "proved",
   "theorems": [
    "C04_reads_last_write"
   ],
   "note": "both resize modes, any hash function, any chunk size, any thread count and schedule"
  },
  {
   "property": "C05",
   "status": "proved",
   "theorems": [
    "C05_unique_winner",
    "C05_C09_tries_agree"
   ],
   "note": "both resize modes, any hash function, any chunk size, any thread count and schedule"
  },
  {
   "property": "C06",
   "status": "proved",
   "theorems": [
    "C06_handed_out_once",
    "C06_removed_once"
   ],
   "note": "both resize modes, any hash function, any chunk size, any thread count and schedule"
  },
  {
   "property": "C07",
   "status": "proved",
   "theorems": [
    "C07_counts_updates",
    "C07_update_is_atomic"
   ],
   "note": "both resize modes, any hash function, any chunk size, any thread count and schedule"
  },
  {
   "property": "C08",
   "status": "proved",
   "theorems": [
    "C08_none_at_most_once",
    "C08_closure_sees_current_bindings"
   ],
   "note": "both resize modes, any hash function, any chunk size, any thread count and schedule"
  },
  {
   "property": "C09",
   "status": "proved",
   "theorems": [
    "C05_C09_tries_agree"
   ],
   "note": "both resize modes, any hash function, any chunk size, any thread count and schedule"
  },
  {
   "property": "C10",
   "status": "proved",
   "theorems": [
    "C10_len_exact"
   ],
   "note": "both resize modes, any hash function, any chunk size, any thread count and schedule"
  },
  {
   "property": "C11",
   "status": "proved",
   "theorems": [
    "C11_iteration_complete",
    "C36_duplicates_need_removal"
   ],
   "note": "both resize modes, any hash function, any chunk size, any thread count and schedule"
  },
  {
   "property": "C12",
   "status": "proved",
   "theorems": [
    "C12_iteration_yields_real_entries"
   ],
   "note": "both resize modes, any hash function, any chunk size, any thread count and schedule"
  },
  {
   "property": "C13",
   "status": "proved",
   "theorems": [
    "C13_C14_swept",
    "C13_C14_sweeps_all_keys"
   ],
   "note": "both resize modes, any hash function, any chunk size, any thread count and schedule"
  },
  {
   "property": "C14",
   "status": "proved",
   "theorems": [
    "C13_C14_swept",
    "C13_C14_sweeps_all_keys"
   ],
   "note": "both resize modes, any hash function, any chunk size, any thread count and schedule"
  },
  {
   "property": "C15",
   "status": "proved",
   "theorems": [
    "C15_no_undefined_behaviour",
    "C15_references_stay_valid"
   ],
   "note": "both resize modes, any hash function, any chunk size, any thread count and schedule"
  },
  {
   "property": "C17",
   "status": "proved",
   "theorems": [
    "C17_no_lost_wakeup",
    "C17_wakeup_on_its_way",
    "C17_pending_never_negative",
    "C17_park_returns_only_when_released"
   ],
   "note": "stand-alone model of src/raw/utils/parker.rs, any number of threads, keys, spurious wakeups"
  },
  {
   "property": "C18",
   "status": "partial",
   "theorems": [
    "C18_lost_wakeup_refuted"
   ],
   "note": "REFUTED: a reachable deadlock of the model in blocking mode (aborting copier unparks the wrong parker). Without an aborted resize there is no deadlock: C52"
  },
  {
   "property": "C19",
   "status": "partial",
   "theorems": [
    "C19_panics_partial",
    "C19_panics_any_capacity_partial",
    "C19_non_power_of_two_capacity_refuted",
    "C19_poisoned_lock_refuted"
   ],
   "note": "unconditional claim REFUTED by with_capacity(5); proved (both modes): with a capacity that is a power of two or below 5 the only panics are the documented compute/Remove one and panics of the caller's own closure"
  },
  {
   "property": "C20",
   "status": "proved",
   "theorems": [
    "C20_entries_for_load",
    "C20_entries_for_u64",
    "C20_never_below_initial",
    "C20_reserve",
    "C20_never_below_capacity"
   ],
   "note": "both resize modes; the lower bound on table sizes holds under all schedules, the reserve guarantee is for len() and reserve(n) called one after the other without interference"
  },
  {
   "property": "C21",
   "status": "proved",
   "theorems": [
    "C21_probe_in_bounds",
    "C21_probe_permutation",
    "C21_alloc_is_pow2"
   ],
   "note": ""
  },
  {
   "property": "C22",
   "status": "proved",
   "theorems": [
    "C22_h2_not_sentinel"
   ],
   "note": ""
  },
  {
   "property": "C23",
   "status": "proved",
   "theorems": [
    "C23_tag_roundtrip",
    "C23_word_decomposes",
    "C23_encoding_faithful"
   ],
   "note": "for 8-aligned non-null addresses; C48 says when the addresses are 8-aligned"
  },
  {
   "property": "C25",
   "status": "proved",
   "theorems": [
    "C25_get_wait_free",
    "C25_iter_next_wait_free"
   ],
   "note": "both modes"
  },
  {
   "property": "C26",
   "status": "proved",
   "theorems": [
    "C26_eq",
    "C01_C02_explained"
   ],
   "note": "client program run by any thread while nobody else uses the map(s); both resize modes"
  },
  {
   "property": "C27",
   "status": "proved",
   "theorems": [
    "C27_extend",
    "C27_from_iter"
   ],
   "note": "client program run by any thread while nobody else uses the map(s); both resize modes"
  },
  {
   "property": "C28",
   "status": "proved",
   "theorems": [
    "C28_clone",
    "C33_each_map_runs_alone"
   ],
   "note": "client program run by any thread while nobody else uses the map(s); both resize modes; resize mode of the original is not preserved by clone (builder default), see DESIGN.md"
  },
  {
   "property": "C29",
   "status": "proved",
   "theorems": [
    "C29_round_trip"
   ],
   "note": "client program run by any thread while nobody else uses the map(s); both resize modes; the byte format is the serializer's and not modelled"
  },
  {
   "property": "C30",
   "status": "proved",
   "theorems": [
    "C30_set",
    "C30_set_eq"
   ],
   "note": "both resize modes, any hash function, any chunk size, any thread count and schedule"
  },
  {
   "property": "C31",
   "status": "proved",
   "theorems": [
    "C31_reads_monotone",
    "C31_real_time_order"
   ],
   "note": "both resize modes, any hash function, any chunk size, any thread count and schedule"
  },
  {
   "property": "C32",
   "status": "proved",
   "theorems": [
    "C32_stack"
   ],
   "note": "stand-alone model of src/raw/utils/stack.rs, sequentially consistent (C61 has the relaxed accesses of the code)"
  },
  {
   "property": "C33",
   "status": "proved",
   "theorems": [
    "C33_wrong_guard_rejected",
    "C33_own_guard_accepted",
    "C33_each_map_runs_alone",
    "C33_no_undefined_behaviour"
   ],
   "note": "machine with several maps and guards passed across maps; C33_check_is_needed shows that without the check a freed entry can be read"
  },
  {
   "property": "C34",
   "status": "partial",
   "theorems": [
    "C34_zero_chunk_iter_never_returns_refuted",
    "C34_zero_chunk_reachable_refuted"
   ],
   "note": "REFUTED for chunk size 0: iter never returns once a resize has started; positive part for chunk sizes above 0: C57"
  },
  {
   "property": "C35",
   "status": "proved",
   "theorems": [
    "C35_try_insert"
   ],
   "note": "both resize modes, any hash function, any chunk size, any thread count and schedule"
  },
  {
   "property": "C36",
   "status": "partial",
   "theorems": [
    "C36_duplicates_need_removal",
    "C36_duplicate_key_refuted"
   ],
   "note": "the unconditional claim is false; proved: a key is yielded twice only if it was removed in between"
  },
  {
   "property": "C37",
   "status": "proved",
   "theorems": [
    "C37_holder_never_waits",
    "C37_no_lock_deadlock",
    "C37_lock_released",
    "C37_one_next_table"
   ],
   "note": "both resize modes"
  },
  {
   "property": "C38",
   "status": "proved",
   "theorems": [
    "C38_remove_if"
   ],
   "note": "both resize modes, any hash function, any chunk size, any thread count and schedule"
  },
  {
   "property": "C24",
   "status": "partial",
   "theorems": [
    "C24_insert_never_returns_refuted"
   ],
   "note": "REFUTED: in blocking mode, with 31 keys of equal hash in a 64-slot table, the next insert resizes to an equally sized table for ever; positive part C56: run alone, a call ends or allocates tables without bound, and the calls that do not allocate end"
  },
  {
   "property": "C40",
   "status": "partial",
   "theorems": [
    "C40_iter_never_returns_refuted",
    "C34_zero_chunk_iter_never_returns_refuted"
   ],
   "note": "REFUTED: in the default mode with chunk size 64, after inserting 37 keys of equal hash, iter run alone allocates tables for ever; positive part (it ends or allocates for ever, nothing else): C57"
  },
  {
   "property": "C39",
   "status": "partial",
   "theorems": [
    "C39_insert_replaces_key",
    "C39_old_key_kept_refuted"
   ],
   "note": "REFUTED: the documentation says the key is not updated; the code replaces the whole entry"
  },
  {
   "property": "C16",
   "status": "proved",
   "theorems": [
    "C16_drop_frees_every_entry_once",
    "C16_incremental_drop_frees_everything",
    "C16_incremental_drop_safe_after_panic",
    "C16_aborted_table_leaks_refuted",
    "C16_double_free_after_panic_refuted"
   ],
   "note": "every ENTRY is freed exactly once at drop in both modes when no call panicked; findings: aborted TABLE leaked in blocking mode; double free at drop after a panicking resize in blocking mode"
  },
  {
   "property": "C41",
   "status": "proved",
   "theorems": [
    "C41_obstruction_free",
    "C41_single_key_ends",
    "C41_single_key_returns",
    "C41_sweeps_end"
   ],
   "note": "incremental mode, any chunk size (including 0)"
  },
  {
   "property": "C42",
   "status": "proved",
   "theorems": [
    "C42_no_deadlock",
    "C42_no_deadlock_pow2",
    "C42_stuck_means_done"
   ],
   "note": "incremental mode; blocking mode can deadlock (C18)"
  },
  {
   "property": "C43",
   "status": "proved",
   "theorems": [
    "C36_duplicates_need_removal"
   ],
   "note": "both resize modes, any hash function, any chunk size, any thread count and schedule"
  },
  {
   "property": "C44",
   "status": "proved",
   "theorems": [
    "C44_only_documented_panic"
   ],
   "note": "both resize modes, any hash function, any chunk size, any thread count and schedule"
  },
  {
   "property": "C45",
   "status": "proved",
   "theorems": [
    "C45_methods_atomic",
    "C45_methods_sequential",
    "C45_keys_values"
   ],
   "note": "both resize modes, any hash function, any chunk size, any thread count and schedule"
  },
  {
   "property": "C46",
   "status": "proved",
   "theorems": [
    "C46_counters_bounded",
    "C46_copied_bounded"
   ],
   "note": "both resize modes; the copied counter for incremental mode. The model's counters are natural numbers; this theorem bounds them, which justifies that. Observation: a chunk size of 2^63 or more could still wrap the real claim counter when two threads claim at once"
  },
  {
   "property": "C47",
   "status": "proved",
   "theorems": [
    "C47_panicked_call_has_no_effect",
    "C47_erasable",
    "C47_reads_unaffected"
   ],
   "note": "both resize modes; panics of the closures of the compute family (remove_if and retain predicates, Hash and Eq are taken not to panic)"
  },
  {
   "property": "C48",
   "status": "partial",
   "theorems": [
    "C48_aligned_types_partial",
    "C48_aligned_allocator_partial",
    "C48_insert_then_get_partial",
    "C48_small_alignment_refuted",
    "C48_zero_size_refuted",
    "C48_unit_set_loses_its_element_refuted"
   ],
   "note": "REFUTED: Entry<K,V> is not aligned to 8 although three tag bits are stored in its address; HashSet<()> (any zero-sized entry of alignment below 8) deterministically loses what is inserted; byte-aligned types depend on the allocator. Proved: fine if the key or the value has alignment at least 8, or if the allocator returns multiples of 8"
  },
  {
   "property": "C49",
   "status": "partial",
   "theorems": [
    "C49_layout_sound_64",
    "C49_layout_sound_checked",
    "C49_layout_32bit_refuted"
   ],
   "note": "proved for 64-bit targets (allocations up to 2^57 bytes) and for checked arithmetic on any target; REFUTED for 32-bit release builds: with_capacity(450_000_000) wraps around and every entry lies outside the allocation"
  },
  {
   "property": "C50",
   "status": "proved",
   "theorems": [
    "C50_published_objects_initialised"
   ],
   "note": "stand-alone model: release/acquire memory with views, SeqCst weakened to AcqRel, the most general client of the accesses in the code; nodes of the deferred stack and the reclamation of seize are not part of it"
  },
  {
   "property": "C51",
   "status": "proved",
   "theorems": [
    "C51_finished_resize_seen",
    "C51_promoted_status_seen",
    "C51_promotion_complete"
   ],
   "note": "stand-alone model: release/acquire memory with views, SeqCst weakened to AcqRel, the most general client of the accesses in the code; nodes of the deferred stack and the reclamation of seize are not part of it"
  },
  {
   "property": "C52",
   "status": "proved",
   "theorems": [
    "C52_no_deadlock_without_abort",
    "C52_no_deadlock_pow2",
    "C52_stuck_means_done"
   ],
   "note": "blocking mode; the positive part of C18"
  },
  {
   "property": "C53",
   "status": "proved",
   "theorems": [
    "C53_no_lost_wakeup",
    "C53_quiet",
    "C53_woken_returns",
    "C53_park_happens_before",
    "C53_pending_never_negative"
   ],
   "note": "stand-alone model of parker.rs: memory with views and timestamps, SeqCst accesses in the order of execution (program order, reads-from and the SeqCst order are put into one sequence); any client"
  },
  {
   "property": "C54",
   "status": "proved",
   "theorems": [
    "C54_reads",
    "C54_writes",
    "C54_one_writer",
    "C54_program_order",
    "C54_synchronised"
   ],
   "note": "stand-alone model of the accesses of one key's operations and of incremental resizing over release/acquire memory with views (SeqCst weakened to AcqRel); other keys are the environment; blocking resizing is not part of it (see C59)"
  },
  {
   "property": "C55",
   "status": "proved",
   "theorems": [
    "C55_reads_do_not_wait",
    "C55_alone"
   ],
   "note": "extends C25: incremental mode, len, iter, liveness under every infinite schedule"
  },
  {
   "property": "C56",
   "status": "proved",
   "theorems": [
    "C56_ends_or_allocates_idle",
    "C56_no_alloc_ends_idle",
    "C56_ends_or_allocates",
    "C56_no_alloc_ends"
   ],
   "note": "the positive part of C24: blocking mode, all operations"
  },
  {
   "property": "C58",
   "status": "proved",
   "theorems": [
    "C58_no_unfinished_resize",
    "C58_no_unfinished_resize_any_capacity"
   ],
   "note": "all schedules, blocking mode; also removes the hypothesis on resizes from C56"
  },
  {
   "property": "C57",
   "status": "proved",
   "theorems": [
    "C57_ends_or_allocates"
   ],
   "note": "the positive part of C40 and C34: incremental mode, all operations, a resize may be in progress"
  },
  {
   "property": "C59",
   "status": "proved",
   "theorems": [
    "C59_no_write_lost",
    "C59_copy_known",
    "C59_copied_once",
    "C59_complete",
    "C59_aborted",
    "C59_entry_known",
    "C59_forward"
   ],
   "note": "stand-alone model of the blocking resize protocol over release/acquire memory with views (SeqCst weakened to AcqRel); which slot an entry is copied to is left open, keys are not modelled (C54 has the operations on a key)"
  },
  {
   "property": "C60",
   "status": "proved",
   "theorems": [
    "C60_len",
    "C60_exact",
    "C60_growing",
    "C60_shrinking"
   ],
   "note": "stand-alone model of the sharded counter over view-based memory with relaxed accesses; happens-before is defined on the trace (program order and arbitrary synchronisation). That each change of the set of keys is followed by exactly one update of the counter is C10/C46 (machine model). C60_ex: the hypotheses are met, and a thread which has not synchronised may miss an insertion"
  },
  {
   "property": "C61",
   "status": "proved",
   "theorems": [
    "C61_drain",
    "C61_no_race",
    "C61_only_pushed"
   ],
   "note": "stand-alone model of the stack over view-based memory with relaxed accesses and versioned nodes; that the drain of a table has exclusive access follows from C15/C16 and the reclamation scheme, which is trusted. Freeing of the nodes is not modelled"
  }
 ]
}