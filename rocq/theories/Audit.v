(** Generated by tools/mkaudit.py: the assumptions of every theorem named in MANIFEST.json. *)
From Verif Require Api BDeadMain Capacity Counters DeadMain Drop DropEx Examples3 Findings Guards Layout LenRun LivelockEx Locks Main1 Main2 Main3 Main4 NoWait OweMain Panics ParkerModel PropArith SoloBMain SoloCMain SoloMain StackModel WaitFree Weak WeakBlkMain WeakLen WeakMapMain WeakParker WeakStack Words.
(** One tuple of all of them, so that the traversal of the proofs is shared. *)
Definition all_theorems :=
  (@Main1.C01_linearizable,
   @Main1.C01_C02_linearizable,
   @Main1.C02_linearizable_blocking,
   @Main2.C03_sequential_semantics,
   @Main2.C04_reads_last_write,
   @Main2.C05_unique_winner,
   @Main2.C05_C09_tries_agree,
   @Main2.C06_handed_out_once,
   @Main2.C06_removed_once,
   @Main2.C07_counts_updates,
   @Main2.C07_update_is_atomic,
   @Main2.C08_none_at_most_once,
   @Main2.C08_closure_sees_current_bindings,
   @LenRun.C10_len_exact,
   @Main2.C11_iteration_complete,
   @Main2.C36_duplicates_need_removal,
   @Main2.C12_iteration_yields_real_entries,
   @Main2.C13_C14_swept,
   @Main2.C13_C14_sweeps_all_keys,
   @Main1.C15_no_undefined_behaviour,
   @Main1.C15_references_stay_valid,
   @ParkerModel.C17_no_lost_wakeup,
   @ParkerModel.C17_wakeup_on_its_way,
   @ParkerModel.C17_pending_never_negative,
   @ParkerModel.C17_park_returns_only_when_released,
   @Findings.C18_lost_wakeup_refuted,
   @Main1.C19_panics_partial,
   @Main1.C19_panics_any_capacity_partial,
   @Findings.C19_non_power_of_two_capacity_refuted,
   @Findings.C19_poisoned_lock_refuted,
   @PropArith.C20_entries_for_load,
   @PropArith.C20_entries_for_u64,
   @PropArith.C20_never_below_initial,
   @Capacity.C20_reserve,
   @Capacity.C20_never_below_capacity,
   @PropArith.C21_probe_in_bounds,
   @PropArith.C21_probe_permutation,
   @PropArith.C21_alloc_is_pow2,
   @PropArith.C22_h2_not_sentinel,
   @PropArith.C23_tag_roundtrip,
   @PropArith.C23_word_decomposes,
   @Words.C23_encoding_faithful,
   @WaitFree.C25_get_wait_free,
   @WaitFree.C25_iter_next_wait_free,
   @Main3.C26_eq,
   @Main3.C01_C02_explained,
   @Main3.C27_extend,
   @Main3.C27_from_iter,
   @Main3.C28_clone,
   @Guards.C33_each_map_runs_alone,
   @Main3.C29_round_trip,
   @Main3.C30_set,
   @Main3.C30_set_eq,
   @Main2.C31_reads_monotone,
   @Main2.C31_real_time_order,
   @StackModel.C32_stack,
   @Guards.C33_wrong_guard_rejected,
   @Guards.C33_own_guard_accepted,
   @Guards.C33_no_undefined_behaviour,
   @Findings.C34_zero_chunk_iter_never_returns_refuted,
   @Findings.C34_zero_chunk_reachable_refuted,
   @Main2.C35_try_insert,
   @Findings.C36_duplicate_key_refuted,
   @Locks.C37_holder_never_waits,
   @Locks.C37_no_lock_deadlock,
   @Locks.C37_lock_released,
   @Locks.C37_one_next_table,
   @Main2.C38_remove_if,
   @LivelockEx.C24_insert_never_returns_refuted,
   @LivelockEx.C40_iter_never_returns_refuted,
   @Examples3.C39_insert_replaces_key,
   @Examples3.C39_old_key_kept_refuted,
   @Drop.C16_drop_frees_every_entry_once,
   @Drop.C16_incremental_drop_frees_everything,
   @Drop.C16_incremental_drop_safe_after_panic,
   @DropEx.C16_aborted_table_leaks_refuted,
   @DropEx.C16_double_free_after_panic_refuted,
   @SoloMain.C41_obstruction_free,
   @SoloMain.C41_single_key_ends,
   @SoloMain.C41_single_key_returns,
   @SoloMain.C41_sweeps_end,
   @DeadMain.C42_no_deadlock,
   @DeadMain.C42_no_deadlock_pow2,
   @DeadMain.C42_stuck_means_done,
   @Main4.C44_only_documented_panic,
   @Api.C45_methods_atomic,
   @Api.C45_methods_sequential,
   @Api.C45_keys_values,
   @Counters.C46_counters_bounded,
   @Counters.C46_copied_bounded,
   @Panics.C47_panicked_call_has_no_effect,
   @Panics.C47_erasable,
   @Panics.C47_reads_unaffected,
   @Words.C48_aligned_types_partial,
   @Words.C48_aligned_allocator_partial,
   @Words.C48_insert_then_get_partial,
   @Words.C48_small_alignment_refuted,
   @Words.C48_zero_size_refuted,
   @Words.C48_unit_set_loses_its_element_refuted,
   @Layout.C49_layout_sound_64,
   @Layout.C49_layout_sound_checked,
   @Layout.C49_layout_32bit_refuted,
   @Weak.C50_published_objects_initialised,
   @Weak.C51_finished_resize_seen,
   @Weak.C51_promoted_status_seen,
   @Weak.C51_promotion_complete,
   @BDeadMain.C52_no_deadlock_without_abort,
   @BDeadMain.C52_no_deadlock_pow2,
   @BDeadMain.C52_stuck_means_done,
   @WeakParker.C53_no_lost_wakeup,
   @WeakParker.C53_quiet,
   @WeakParker.C53_woken_returns,
   @WeakParker.C53_park_happens_before,
   @WeakParker.C53_pending_never_negative,
   @WeakMapMain.C54_reads,
   @WeakMapMain.C54_writes,
   @WeakMapMain.C54_one_writer,
   @WeakMapMain.C54_program_order,
   @WeakMapMain.C54_synchronised,
   @NoWait.C55_reads_do_not_wait,
   @NoWait.C55_alone,
   @OweMain.C56_ends_or_allocates_idle,
   @OweMain.C56_no_alloc_ends_idle,
   @SoloBMain.C56_ends_or_allocates,
   @SoloBMain.C56_no_alloc_ends,
   @OweMain.C58_no_unfinished_resize,
   @OweMain.C58_no_unfinished_resize_any_capacity,
   @SoloCMain.C57_ends_or_allocates,
   @WeakBlkMain.C59_no_write_lost,
   @WeakBlkMain.C59_copy_known,
   @WeakBlkMain.C59_copied_once,
   @WeakBlkMain.C59_complete,
   @WeakBlkMain.C59_aborted,
   @WeakBlkMain.C59_entry_known,
   @WeakBlkMain.C59_forward,
   @WeakLen.C60_len,
   @WeakLen.C60_exact,
   @WeakLen.C60_growing,
   @WeakLen.C60_shrinking,
   @WeakStack.C61_drain,
   @WeakStack.C61_no_race,
   @WeakStack.C61_only_pushed).
Print Assumptions all_theorems.
