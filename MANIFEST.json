{
 "claims": [
  {
   "property": "C01",
   "status": "proved",
   "theorems": [
    "C01_apply_comparator"
   ],
   "note": ""
  },
  {
   "property": "C02",
   "status": "proved",
   "theorems": [
    "C02_swap_channels",
    "C02_invert"
   ],
   "note": ""
  },
  {
   "property": "C03",
   "status": "proved",
   "theorems": [
    "C03_is_sorted",
    "C03_is_sorted_network"
   ],
   "note": ""
  },
  {
   "property": "C04",
   "status": "proved",
   "theorems": [
    "C04_pack_unpack",
    "C04_pack_injective",
    "C04_unpack_pack"
   ],
   "note": ""
  },
  {
   "property": "C05",
   "status": "proved",
   "theorems": [
    "C05_channel_is_extremal",
    "C05_prune_extremal",
    "C05_prune_extremal_panics"
   ],
   "note": ""
  },
  {
   "property": "C06",
   "status": "proved",
   "theorems": [
    "C06_canonicalize_isomorphic"
   ],
   "note": ""
  },
  {
   "property": "C07",
   "status": "proved",
   "theorems": [
    "C07_canonicalize_canonical",
    "C07_canonicalize_separates",
    "C07_canonicalize_idempotent"
   ],
   "note": ""
  },
  {
   "property": "C08",
   "status": "proved",
   "theorems": [
    "C08_subsumes_permuted_sound"
   ],
   "note": ""
  },
  {
   "property": "C09",
   "status": "proved",
   "theorems": [
    "C09_subsumes_permuted_complete"
   ],
   "note": ""
  },
  {
   "property": "C10",
   "status": "proved",
   "theorems": [
    "C10_abstraction_monotone",
    "C10_abstraction_invariant",
    "C10_abstraction_fits_u16"
   ],
   "note": ""
  },
  {
   "property": "C11",
   "status": "proved",
   "theorems": [
    "C11_lookup_best",
    "C11_masked_index_in_range"
   ],
   "note": ""
  },
  {
   "property": "C12",
   "status": "proved",
   "theorems": [
    "C12_lookup_subsuming_witness",
    "C12_lookup_is_bound"
   ],
   "note": ""
  },
  {
   "property": "C13",
   "status": "proved",
   "theorems": [
    "C13_insert_keeps_undominated",
    "C13_checked_history",
    "C13_duplicates_panic"
   ],
   "note": "Proved for states in which the inserted set occurs at most once; C13_checked_history shows that this always holds when only insert_with_abstraction is used, C13_duplicates_panic that it is needed after unchecked insertions."
  },
  {
   "property": "C14",
   "status": "proved",
   "theorems": [
    "C14_for_each_len_is_empty",
    "C14_unchecked_adds_one"
   ],
   "note": ""
  },
  {
   "property": "C15",
   "status": "proved",
   "theorems": [
    "C15_huffman_optimal",
    "C15_huffman_kraft",
    "C15_huffman_order",
    "C15_huffman_total",
    "C15_huffman_overflow",
    "C15_huffman_empty"
   ],
   "note": ""
  },
  {
   "property": "C16",
   "status": "proved",
   "theorems": [
    "C16_get_returns_last_set",
    "C16_len",
    "C16_drain"
   ],
   "note": ""
  },
  {
   "property": "C17",
   "status": "proved",
   "theorems": [
    "C17_default_bounds",
    "C17_known_sizes"
   ],
   "note": ""
  },
  {
   "property": "C18",
   "status": "proved",
   "theorems": [
    "C18_stored_bounds_valid",
    "C18_get_bounds_valid",
    "C18_never_panics"
   ],
   "note": ""
  },
  {
   "property": "C19",
   "status": "proved",
   "theorems": [
    "C19_search_returns_minimal_size",
    "C19_search_with_limit",
    "C19_search_returns_optimum"
   ],
   "note": ""
  },
  {
   "property": "C20",
   "status": "proved",
   "theorems": [
    "C20_bounds_tighten"
   ],
   "note": ""
  },
  {
   "property": "C21",
   "status": "proved",
   "theorems": [
    "C21_lock_exclusive",
    "C21_write_needs_lock",
    "C21_locked_iff_held",
    "C21_finished_holds_nothing"
   ],
   "note": ""
  },
  {
   "property": "C22",
   "status": "proved",
   "theorems": [
    "C22_order_well_founded",
    "C22_targets_smaller",
    "C22_waits_below_held",
    "C22_children_smaller",
    "C22_no_waiting_cycle"
   ],
   "note": ""
  },
  {
   "property": "C23",
   "status": "proved",
   "theorems": [
    "C23_improve_progress",
    "C23_task_progress"
   ],
   "note": ""
  },
  {
   "property": "C24",
   "status": "proved",
   "theorems": [
    "C24_names_distinct",
    "C24_names_parsed",
    "C24_log_complete",
    "C24_search_log_valid"
   ],
   "note": ""
  },
  {
   "property": "C25",
   "status": "proved",
   "theorems": [
    "C25_prune_keeps_representatives",
    "C25_bounds_survive"
   ],
   "note": ""
  },
  {
   "property": "C26",
   "status": "proved",
   "theorems": [
    "C26_crash_safe",
    "C26_pruned_complete"
   ],
   "note": ""
  },
  {
   "property": "C27",
   "status": "proved",
   "theorems": [
    "C27_ends",
    "C27_references_backwards"
   ],
   "note": ""
  },
  {
   "property": "C28",
   "status": "proved",
   "theorems": [
    "C28_decode_written"
   ],
   "note": ""
  },
  {
   "property": "C29",
   "status": "proved",
   "theorems": [
    "C29_fix_proof",
    "C29_restores_generated"
   ],
   "note": ""
  },
  {
   "property": "C30",
   "status": "proved",
   "theorems": [
    "C30_verified_checker_sound",
    "C30_accepted_steps_sound",
    "C30_snocheck_v_sound"
   ],
   "note": ""
  },
  {
   "property": "C31",
   "status": "proved",
   "theorems": [
    "C31_reference_sound_wellformed",
    "C31_reference_unchecked_perm_refuted",
    "C31_reference_padding_refuted",
    "C31_reference_empty_refuted",
    "C31_reference_sound_refuted",
    "C31_snocheck_r_sound_wellformed",
    "C31_checkers_agree",
    "C31_snocheck_r_refuted",
    "C31_snocheck_r_perm_refuted"
   ],
   "note": ""
  },
  {
   "property": "C32",
   "status": "proved",
   "theorems": [
    "C32_accepted"
   ],
   "note": ""
  },
  {
   "property": "C33",
   "status": "proved",
   "theorems": [
    "C33_pipeline"
   ],
   "note": "Hypotheses: no .pbin file is left in the log directory from an earlier search (prune skips groups whose .pbin exists), and fewer than 2^32 sets are stored (step numbers are written as u32). Covers any number of interrupted prune runs before the complete one."
  },
  {
   "property": "C34",
   "status": "proved",
   "theorems": [
    "C34_gnp_stops_after_optimum",
    "C34_too_many_channels"
   ],
   "note": ""
  },
  {
   "property": "C35",
   "status": "proved",
   "theorems": [
    "C35_started_once",
    "C35_not_lost",
    "C35_smallest_first",
    "C35_idle_only_when_empty"
   ],
   "note": ""
  },
  {
   "property": "C36",
   "status": "proved",
   "theorems": [
    "C36_symmetry",
    "C36_subsumption"
   ],
   "note": ""
  },
  {
   "property": "C37",
   "status": "proved",
   "theorems": [
    "C37_channel_abstraction",
    "C37_channel_pair_abstraction",
    "C37_subsumes_unpermuted",
    "C37_len",
    "C37_weight_histogram",
    "C37_is_channel_unconstrained",
    "C37_channel_fingerprint",
    "C37_low_channels_fingerprint"
   ],
   "note": ""
  },
  {
   "property": "C38",
   "status": "proved",
   "theorems": [
    "C38_search_with_prefix",
    "C38_prefix_with_limit",
    "C38_no_prefix",
    "C38_panics",
    "C38_release_ignores"
   ],
   "note": ""
  },
  {
   "property": "C39",
   "status": "proved",
   "theorems": [
    "C39_search_can_finish",
    "C39_finishes_with_optimum",
    "C39_search_completes"
   ],
   "note": ""
  },
  {
   "property": "C40",
   "status": "proved",
   "theorems": [
    "C40_entry_changes_bounded",
    "C40_writes_bounded"
   ],
   "note": ""
  },
  {
   "property": "C41",
   "status": "proved",
   "theorems": [
    "C41_fair_search_ends",
    "C41_fair_search_finds_optimum",
    "C41_fair_search_finds_minimal_size",
    "C41_fair_execution_exists"
   ],
   "note": ""
  },
  {
   "property": "C42",
   "status": "proved",
   "theorems": [
    "C42_arena_same_result",
    "C42_arena_isomorphic",
    "C42_arena_canonical",
    "C42_no_slot_lost"
   ],
   "note": ""
  },
  {
   "property": "C43",
   "status": "proved",
   "theorems": [
    "C43_workers_run_search",
    "C43_no_lost_wakeup",
    "C43_one_worker_per_task",
    "C43_workers_never_panic",
    "C43_pool_never_stuck"
   ],
   "note": ""
  },
  {
   "property": "C44",
   "status": "proved",
   "theorems": [
    "C44_pool_is_fair",
    "C44_search_ends",
    "C44_search_finds_optimum",
    "C44_search_finds_minimal_size",
    "C44_turns_go_on"
   ],
   "note": ""
  },
  {
   "property": "C45",
   "status": "proved",
   "theorems": [
    "C45_reads_in_range",
    "C45_abstraction_fits",
    "C45_writes_in_range",
    "C45_prune_queue_fits",
    "C45_abstraction_empty_panics"
   ],
   "note": ""
  },
  {
   "property": "C46",
   "status": "proved",
   "theorems": [
    "C46_checked_search_right",
    "C46_checked_search_same",
    "C46_buffer_contents_irrelevant"
   ],
   "note": ""
  },
  {
   "property": "C47",
   "status": "proved",
   "theorems": [
    "C47_workers_to_checkers"
   ],
   "note": ""
  },
  {
   "property": "C48",
   "status": "proved",
   "theorems": [
    "C48_layout",
    "C48_lookup_best",
    "C48_lookup_subsuming_witness",
    "C48_insert_keeps_undominated",
    "C48_checked_history",
    "C48_unchecked_adds_one",
    "C48_for_each_len_is_empty"
   ],
   "note": ""
  },
  {
   "property": "C49",
   "status": "proved",
   "theorems": [
    "C49_checked_same_result",
    "C49_checked_isomorphic",
    "C49_checked_canonical",
    "C49_too_many_channels"
   ],
   "note": ""
  },
  {
   "property": "C50",
   "status": "proved",
   "theorems": [
    "C50_no_check_fails",
    "C50_len_and_drain",
    "C50_too_many_channels"
   ],
   "note": ""
  },
  {
   "property": "C51",
   "status": "proved",
   "theorems": [
    "C51_no_check_fails",
    "C51_same_search",
    "C51_search_returns_minimal_size",
    "C51_search_returns_optimum",
    "C51_stored_bounds_valid",
    "C51_cells",
    "C51_priority"
   ],
   "note": ""
  },
  {
   "property": "C52",
   "status": "proved",
   "theorems": [
    "C52_lookups",
    "C52_insert",
    "C52_unchecked_and_for_each",
    "C52_bitmap_contents_irrelevant"
   ],
   "note": ""
  },
  {
   "property": "C53",
   "status": "proved",
   "theorems": [
    "C53_prune_keeps_representatives",
    "C53_same_answers",
    "C53_pipeline"
   ],
   "note": ""
  },
  {
   "property": "C54",
   "status": "proved",
   "theorems": [
    "C54_no_check_fails",
    "C54_same_search",
    "C54_lock",
    "C54_never_stuck",
    "C54_search_ends",
    "C54_search_finds_optimum",
    "C54_search_finds_minimal_size",
    "C54_turns_go_on"
   ],
   "note": ""
  },
  {
   "property": "C55",
   "status": "proved",
   "theorems": [
    "C55_threads_to_checkers"
   ],
   "note": ""
  },
  {
   "property": "C56",
   "status": "proved",
   "theorems": [
    "C56_no_check_fails",
    "C56_same_program",
    "C56_ends_without_tasks",
    "C56_returned",
    "C56_returns_optimum",
    "C56_returns_minimal_size",
    "C56_scope_returns",
    "C56_scope_returns_minimal_size",
    "C56_turns_go_on"
   ],
   "note": ""
  },
  {
   "property": "C57",
   "status": "proved",
   "theorems": [
    "C57_pool_not_used_after_drop_refuted",
    "C57_only_left_over_tasks",
    "C57_not_used_after_return"
   ],
   "note": "The plain form is false of the model: C57_pool_not_used_after_drop_refuted gives a run of 291 steps on three workers. The other two theorems say what holds. (The reading is that of the safe-Rust contract: a reference is used after the value was dropped; whether this corrupts memory depends on the channel implementation.)"
  },
  {
   "property": "C58",
   "status": "proved",
   "theorems": [
    "C58_certificate",
    "C58_no_certificate",
    "C58_with_limit",
    "C58_with_prefix",
    "C58_every_limit_refuted"
   ],
   "note": "C58_every_limit_refuted: with limit 1 the search may stop with an empty log, and the generator panics. Level of the plain model; C59_limit_to_checkers is the positive part on the checked model. Hypothesis as in C33: no .pbin file left over, fewer than 2^32 sets."
  },
  {
   "property": "C59",
   "status": "proved",
   "theorems": [
    "C59_scope_to_checkers",
    "C59_scope_with_prefix",
    "C59_limit_to_checkers"
   ],
   "note": "Hypotheses as in C33: no .pbin file is left from an earlier search and fewer than 2^32 sets are stored; every thread goes on (weak fairness)."
  },
  {
   "property": "C60",
   "status": "proved",
   "theorems": [
    "C60_one_process_per_file",
    "C60_nobody_writes",
    "C60_then_prune_all",
    "C60_all_ended",
    "C60_every_run_ends",
    "C60_single_process",
    "C60_never_half_written_refuted"
   ],
   "note": "C60_never_half_written_refuted: with two processes on the same file a .pbin may be empty though the process that renamed it has ended successfully. C60_all_ended is what holds instead. Simplified: the output of a call is computed at once, at File::create; prune-all reads its index once at the start."
  },
  {
   "property": "C61",
   "status": "proved",
   "theorems": [
    "C61_gnp_passes_every_check",
    "C61_gnp_panics"
   ],
   "note": "The same claim as C34 on the checked parts, with the additional result that 0 channels panic."
  },
  {
   "property": "C62",
   "status": "proved",
   "theorems": [
    "C62_truncated_rejected",
    "C62_appended_ignored",
    "C62_killed_generator",
    "C62_fix_operations",
    "C62_fix_again",
    "C62_killed_fix"
   ],
   "note": "C62_fix_again: an interrupted fix-proof cannot be started again before proof.bin is removed. Simplified: files are written byte by byte instead of in the blocks of BufWriter."
  },
  {
   "property": "C63",
   "status": "proved",
   "theorems": [
    "C63_killed_dump",
    "C63_stopped_between_entries",
    "C63_torn_file",
    "C63_torn_index"
   ],
   "note": "The directory is empty before the search. A file is cut after any number of bytes, independently of the other files. The index cut after a complete line can lead to a certificate for fewer channels (Example C63_case_outcomes)."
  },
  {
   "property": "C64",
   "status": "proved",
   "theorems": [
    "C64_forest",
    "C64_lines",
    "C64_gnp_layers"
   ],
   "note": "Simplified: the text is returned instead of written, so no error of the writer."
  },
  {
   "property": "C65",
   "status": "proved",
   "theorems": [
    "C65_complement",
    "C65_canonical_form"
   ],
   "note": "The complement is taken where the score is read; the default score of canon.rs:135 is never read, because every layer that reaches prune_using_fingerprints has gone through sort_partition."
  },
  {
   "property": "C66",
   "status": "proved",
   "theorems": [
    "C66_any_schedule",
    "C66_prune",
    "C66_prune_representatives",
    "C66_prove_all",
    "C66_gen_proof",
    "C66_pipeline"
   ],
   "note": "rayon itself is not part of the project; it is modelled by its documented behaviour (join waits for both closures, collect keeps the order)."
  }
 ]
}