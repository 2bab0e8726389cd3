{
 "claims": [
  {
   "property": "C01",
   "status": "proved",
   "theorems": [
    "C01_phrase_key_roundtrip",
    "C01_phrase_key_bytes_nonzero",
    "C01_unbounded_words_refuted"
   ],
   "note": "Round trip proved for all phrases with words below 254^3; C01_unbounded_words_refuted shows the collision above it."
  },
  {
   "property": "C02",
   "status": "proved",
   "theorems": [
    "C02_same_kind_distinct",
    "C02_kinds_disjoint",
    "C02_empty_target_refuted"
   ],
   "note": "Injectivity and disjointness proved; C02_empty_target_refuted records the aliasing for an empty target phrase."
  },
  {
   "property": "C03",
   "status": "proved",
   "theorems": [
    "C03_ngram_key_roundtrip",
    "C03_ngram_key_injective",
    "C03_null_key_fresh",
    "C03_ngram_key_order",
    "C03_shorter_ngrams_first"
   ],
   "note": "Round trip, injectivity, freshness of the null key, order preservation."
  },
  {
   "property": "C04",
   "status": "proved",
   "theorems": [
    "C04_lex_key_roundtrip",
    "C04_lex_key_order",
    "C04_float_roundtrip"
   ],
   "note": "Also covers the bit-exact float codec of the same table."
  },
  {
   "property": "C05",
   "status": "proved",
   "theorems": [
    "C05_range_scan_exact",
    "C05_found_flag",
    "C05_last_word_lost_refuted"
   ],
   "note": "Over every history of setter calls; t=2^32-1 wraps and returns nothing (C05_last_word_lost_refuted)."
  },
  {
   "property": "C06",
   "status": "proved",
   "theorems": [
    "C06_set_changes_only_bit_n",
    "C06_reset_changes_only_bit_n",
    "C06_test_reads_bit",
    "C06_reset_all_clears",
    "C06_set_all_sets",
    "C06_ulong_roundtrip"
   ],
   "note": "All positions below 32*words; also the unsigned long conversions."
  },
  {
   "property": "C07",
   "status": "proved",
   "theorems": [
    "C07_or_pointwise",
    "C07_and_pointwise",
    "C07_xor_pointwise",
    "C07_equality_is_same_bits"
   ],
   "note": "Pointwise on every bit; == iff all bits agree."
  },
  {
   "property": "C08",
   "status": "proved",
   "theorems": [
    "C08_order_is_numeric",
    "C08_strict_total_order"
   ],
   "note": "Numeric order, hence strict total order."
  },
  {
   "property": "C09",
   "status": "proved",
   "theorems": [
    "C09_increment",
    "C09_plus_when_small",
    "C09_plus_refuted"
   ],
   "note": "operator++ proved; operator+ proved under the no-lost-carry side condition and refuted without it (finding)."
  },
  {
   "property": "C10",
   "status": "proved",
   "theorems": [
    "C10_shift_right",
    "C10_count",
    "C10_count_beyond_words_refuted"
   ],
   "note": "Every shift amount (also >= the size); count out of range reads past the array (refuted)."
  },
  {
   "property": "C11",
   "status": "proved",
   "theorems": [
    "C11_sorted",
    "C11_find_last_pushed",
    "C11_size_counts_keys",
    "C11_pop_removes_largest"
   ],
   "note": "All histories of push, [], pop and clear; generic in the key order."
  },
  {
   "property": "C12",
   "status": "proved",
   "theorems": [
    "C12_find",
    "C12_insert_total",
    "C12_size",
    "C12_height"
   ],
   "note": "find is completely characterised, also size and height; an interior prefix that was never inserted is found with default data."
  },
  {
   "property": "C13",
   "status": "proved",
   "theorems": [
    "C13_edit_distance_is_cheapest_script"
   ],
   "note": "Generic over the element type and arbitrary (even element-dependent) costs; scores are exact integers, floating-point rounding not modelled."
  },
  {
   "property": "C14",
   "status": "proved",
   "theorems": [
    "C14_operation_counts_of_a_cheapest_script",
    "C14_weighted_counts_sum_to_distance"
   ],
   "note": "Counts belong to one cheapest script; the weighted-sum form is for constant per-operation costs as in _editDist."
  },
  {
   "property": "C15",
   "status": "proved",
   "theorems": [
    "C15_prefix_distance",
    "C15_prefix_operations",
    "C15_without_prefix_operation_is_plain",
    "C15_empty_target_refuted"
   ],
   "note": "Non-empty y proved (value for non-negative, operations for positive deletion cost); the empty-y exception is proved as a refutation."
  },
  {
   "property": "C16",
   "status": "proved",
   "theorems": [
    "C16_set_operations",
    "C16_different_dimensions_unchanged",
    "C16_difference_refuted",
    "C16_flip_is_complement"
   ],
   "note": "Links = non-zero cells. -= is refuted: it never removes a link."
  },
  {
   "property": "C17",
   "status": "proved",
   "theorems": [
    "C17_transpose",
    "C17_transpose_links",
    "C17_transpose_involutive"
   ],
   "note": ""
  },
  {
   "property": "C18",
   "status": "proved",
   "theorems": [
    "C18_symmetr1",
    "C18_symmetr2",
    "C18_growDiagFinal",
    "C18_growDiagFinal_phases",
    "C18_different_dimensions_unchanged"
   ],
   "note": "Termination with an explicit iteration bound, bounds, and the closure properties that determine which union links are left out. Argument assumed not to alias *this."
  },
  {
   "property": "C19",
   "status": "proved",
   "theorems": [
    "C19_put_links",
    "C19_put_wrong_length_unchanged",
    "C19_get_characterization",
    "C19_put_get_roundtrip_refuted"
   ],
   "note": "Import proved; export characterized exactly and the round trip refuted (values come back reduced by one)."
  },
  {
   "property": "C20",
   "status": "proved",
   "theorems": [
    "C20_vocabulary_contents",
    "C20_vocabulary_bijection"
   ],
   "note": "One side of the vocabulary; source and target code are identical."
  },
  {
   "property": "C21",
   "status": "proved",
   "theorems": [
    "C21_save_load_roundtrip",
    "C21_reload_is_unobservable",
    "C21_gapped_file_refuted"
   ],
   "note": "Words non-empty without blank, newline, NUL; fewer than 2^31 words; any map iteration order. Gapped-file index collision proved."
  },
  {
   "property": "C22",
   "status": "proved",
   "theorems": [
    "C22_tokenize_is_words",
    "C22_join_then_split",
    "C22_tokens_are_clean",
    "C22_split_C_string"
   ],
   "note": ""
  },
  {
   "property": "C23",
   "status": "proved",
   "theorems": [
    "C23_number_of_fields",
    "C23_field_access",
    "C23_whole_line"
   ],
   "note": "Any separator character FS."
  },
  {
   "property": "C24",
   "status": "proved",
   "theorems": [
    "C24_terminated_lines",
    "C24_unterminated_line_refuted"
   ],
   "note": "The defect on unterminated last lines is proved for every such file."
  },
  {
   "property": "C25",
   "status": "proved",
   "theorems": [
    "C25_addTableEntry",
    "C25_incrCountsOfEntry",
    "C25_contents",
    "C25_defined",
    "C25_unknown_source_refuted"
   ],
   "note": "Proved for the in-memory table after every history. Finding: addSrcTrgInfo for a source phrase not in the table uses an end() iterator as key (C25_unknown_source_refuted). Counts are integers; float rounding not modelled."
  },
  {
   "property": "C26",
   "status": "proved",
   "theorems": [
    "C26_source_marginal",
    "C26_target_marginal",
    "C26_target_distribution",
    "C26_source_distribution"
   ],
   "note": "Counts integral, division exact (Q)."
  },
  {
   "property": "C27",
   "status": "proved",
   "theorems": [
    "C27_queries_preserve_counts"
   ],
   "note": "Every joint query goes through getSrcTrgKey; size() grows by exactly one when t was unknown."
  },
  {
   "property": "C28",
   "status": "proved",
   "theorems": [
    "C28_hattrie_agrees",
    "C28_leveldb_agrees",
    "C28_leveldb_overwrites_refuted"
   ],
   "note": "Integral counts. Finding: LevelDB addTableEntry overwrites the target total (C28_leveldb_overwrites_refuted)."
  },
  {
   "property": "C29",
   "status": "proved",
   "theorems": [
    "C29_leveldb_numer",
    "C29_leveldb_denom",
    "C29_leveldb_set_both",
    "C29_memory_numer",
    "C29_memory_denom",
    "C29_memory_translations",
    "C29_memory_found_flag_refuted"
   ],
   "note": "In-memory table: LexTabModel (floats as bit patterns, OrderedVector as finite map, justified by C11). LevelDB half in PropertiesCodec. Finding: found flag of in-memory getTransForTarget."
  },
  {
   "property": "C30",
   "status": "proved",
   "theorems": [
    "C30_binary_round_trip"
   ],
   "note": "16-byte little-endian records; loader's unchecked reads are None when the file ends inside a record."
  },
  {
   "property": "C31",
   "status": "proved",
   "theorems": [
    "C31_session_without_counts",
    "C31_session_with_counts",
    "C31_short_target_rejected",
    "C31_short_count_file_refuted"
   ],
   "note": "Files as byte strings read through the AwkInputStream model; handler may have been used before; finding: short count file."
  },
  {
   "property": "C32",
   "status": "proved",
   "theorems": [
    "C32_round_trip",
    "C32_fragmentation_refuted",
    "C32_cut_at_zero_byte",
    "C32_write_failure_unnoticed_refuted"
   ],
   "note": "Wire as byte list, each recv bounded by what has arrived; findings: fragmentation, unnoticed write failure."
  },
  {
   "property": "C33",
   "status": "proved",
   "theorems": [
    "C33_keeps_best",
    "C33_ties",
    "C33_push_result",
    "C33_history",
    "C33_top_last",
    "C33_capacity_zero"
   ],
   "note": "Single bounded stack: best-k selection, order, ties, result flag, mixed histories, top/last."
  },
  {
   "property": "C34",
   "status": "proved",
   "theorems": [
    "C34_safe",
    "C34_unique",
    "C34_complete",
    "C34_default_class",
    "C34_default_class_refuted",
    "C34_shared_state_refuted",
    "C34_shrinking_refuted"
   ],
   "note": "Safety for every history; uniqueness/optimality/completeness under the stated class condition; refutations for the default class function and for setMaxStackSize shrinking."
  },
  {
   "property": "C35",
   "status": "proved",
   "theorems": [
    "C35_pop",
    "C35_top",
    "C35_top_refuted",
    "C35_removeLast",
    "C35_removeLast_worst_refuted"
   ],
   "note": "pop/top/removeLast on every reachable multi-stack; findings for top and removeLast in best-first mode are proved as _refuted."
  },
  {
   "property": "C36",
   "status": "proved",
   "theorems": [
    "C36_contents",
    "C36_unique",
    "C36_stable"
   ],
   "note": "Indices are 0,1,2,... by first use; stable; scores are the last given."
  },
  {
   "property": "C37",
   "status": "proved",
   "theorems": [
    "C37_prec_n",
    "C37_ngrams",
    "C37_at_most_total",
    "C37_symmetric",
    "C37_identical",
    "C37_corpus",
    "C37_short_system_file"
   ],
   "note": "prec_n equals the multiset intersection for all sentences and n; corpus accumulation; float rounding of the accumulators not modelled."
  },
  {
   "property": "C38",
   "status": "proved",
   "theorems": [
    "C38_numbering",
    "C38_unique",
    "C38_asked_name",
    "C38_generated_fresh",
    "C38_calls_finish"
   ],
   "note": "Small-step concurrent model, any number of threads; every interleaving; fresh generated names; the lock holder always finishes."
  },
  {
   "property": "C39",
   "status": "proved",
   "theorems": [
    "C39_exclusive",
    "C39_same_user",
    "C39_own_data",
    "C39_print_overlaps_translation",
    "C39_release_under_translation_refuted",
    "C39_translate_after_release_refuted",
    "C39_table_grows_while_locked_refuted",
    "C39_clear_races_with_lookup_refuted"
   ],
   "note": "Concurrent model of all decoder operations that lock. Exclusion, same-user exclusion and slot disjointness proved over all interleavings; findings: release_user_data frees data under a running translation and leaves the user registered, per_user_mut grows while locked, clearTrans does not take user_id_to_idx_mut."
  },
  {
   "property": "C40",
   "status": "proved",
   "theorems": [
    "C40_progress",
    "C40_schedules_finite",
    "C40_all_calls_finish",
    "C40_failed_init_blocks_forever",
    "C40_deadlock_refuted"
   ],
   "note": "Progress, finiteness of schedules, completion of all calls under every maximal schedule, no lost wakeup, without relying on spurious wakeups; the failing initUserPars leak and its permanent blocking proved."
  },
  {
   "property": "C41",
   "status": "proved",
   "theorems": [
    "C41_fifo_cells",
    "C41_fifo_visits",
    "C41_bound",
    "C41_save_load",
    "C41_load_into_zero_refuted",
    "C41_load_into_bounded_refuted",
    "C41_mixed_use_refuted"
   ],
   "note": "FIFO refinement for both usages, save/load continuation, three findings (load into zero/bounded matrix, mixed use)"
  },
  {
   "property": "C42",
   "status": "proved",
   "theorems": [
    "C42_spans",
    "C42_sound",
    "C42_complete",
    "C42_whole_target_refuted",
    "C42_empty_source_refuted",
    "C42_too_long_refuted"
   ],
   "note": "Findings (_refuted): a whole-target span is only accepted when all source words are covered, so tight pairs of e.g. one-word targets are lost; an empty source sentence yields an empty source phrase with weight 0/0; sentences of 101+ words leave the caller's vector with the previous result."
  },
  {
   "property": "C43",
   "status": "proved",
   "theorems": [
    "C43_och_exact",
    "C43_unaligned_gap_refuted"
   ],
   "note": "Finding (_refuted): the gap test is inverted/off by one: consistent pairs with two adjacent unaligned target words between linked ones are lost."
  },
  {
   "property": "C44",
   "status": "proved",
   "theorems": [
    "C44_rest_is_best_completion",
    "C44_rest_exact",
    "C44_unordered_refuted"
   ],
   "note": "Maximum over all paths; with a magnitude bound it is exactly the best completion; topological order needed (C44_unordered_refuted)."
  },
  {
   "property": "C45",
   "status": "proved",
   "theorems": [
    "C45_terminates",
    "C45_sound",
    "C45_optimal",
    "C45_no_drop",
    "C45_components",
    "C45_final_with_successors_refuted"
   ],
   "note": "Termination, soundness, optimality, sufficient condition for the stack limit not to matter; C45_final_with_successors_refuted shows the hypothesis on final states is needed."
  },
  {
   "property": "C46",
   "status": "proved",
   "theorems": [
    "C46_adjacency",
    "C46_defined",
    "C46_order",
    "C46_order_refuted"
   ],
   "note": "Adjacency for every history incl. pruning; reordering gives a topological order but does not renumber the adjacency lists (C46_order_refuted, finding)."
  },
  {
   "property": "C47",
   "status": "proved",
   "theorems": [
    "C47_useful",
    "C47_paths_kept",
    "C47_no_new_paths",
    "C47_unreachable_final_refuted"
   ],
   "note": "Useful states, renumbering, preservation of complete paths both ways; C47_unreachable_final_refuted is a finding."
  },
  {
   "property": "C48",
   "status": "proved",
   "theorems": [
    "C48_insertions_are_stable_descending_sort",
    "C48_always_descending",
    "C48_prune_removes_exactly_below",
    "C48_best_is_max"
   ],
   "note": "Stable descending sort, threshold pruning, best element, for all histories."
  },
  {
   "property": "C49",
   "status": "proved",
   "theorems": [
    "C49_state",
    "C49_step",
    "C49_score_given_state",
    "C49_sentence",
    "C49_sentence_product"
   ],
   "note": "States, sentence score and product form for any n-gram scorer; order 0 and 1 included."
  },
  {
   "property": "C50",
   "status": "proved",
   "theorems": [
    "C50_distribution",
    "C50_sums_to_one",
    "C50_positive",
    "C50_extra_bos",
    "C50_default_weights_refuted",
    "C50_mass_lost_refuted"
   ],
   "note": "Distribution, exact sum for seen histories, positivity, BOS stripping. Findings: default weights cover only order 3 (out-of-bounds read otherwise); mass of unseen histories is lost (sum 1/2 on an untrained model)."
  },
  {
   "property": "C51",
   "status": "proved",
   "theorems": [
    "C51_table_counts",
    "C51_consistent",
    "C51_joint_le_history",
    "C51_table_history",
    "C51_string_counts",
    "C51_string_totals"
   ],
   "note": "Counts equal totals at the code level and at the string level; history count = sum of joint counts. Counts are exact rationals (C++ float through exp/log)."
  },
  {
   "property": "C52",
   "status": "proved",
   "theorems": [
    "C52_sumlog",
    "C52_sublog",
    "C52_sum_sub",
    "C52_roundtrip"
   ],
   "note": "Over the reals (no rounding); uses the standard library's axioms of the reals."
  },
  {
   "property": "C53",
   "status": "proved",
   "theorems": [
    "C53_last_word_after_a_blank",
    "C53_single_word_refuted"
   ],
   "note": "Single-word defect proved for every single word."
  },
  {
   "property": "C54",
   "status": "proved",
   "theorems": [
    "C54_string_prefix",
    "C54_sentence_prefix",
    "C54_trailing_blank"
   ],
   "note": ""
  },
  {
   "property": "C55",
   "status": "proved",
   "theorems": [
    "C55_stl_entries_for_target",
    "C55_stl_empty_table_refuted",
    "C55_stl_entries_for_source",
    "C55_hattrie_entries_for_target",
    "C55_hattrie_entries_for_source",
    "C55_leveldb_entries_for_target"
   ],
   "note": "Findings: in-memory getEntriesForTarget dereferences begin() of an empty map; LevelDB flag counts visited keys."
  },
  {
   "property": "C56",
   "status": "proved",
   "theorems": [
    "C56_range",
    "C56_perfect",
    "C56_short_sentences_refuted"
   ],
   "note": "Score formula over the reals (standard-library real axioms); float rounding not modelled; sysWords>0 needed."
  },
  {
   "property": "C57",
   "status": "proved",
   "theorems": [
    "C57_best_path",
    "C57_no_path",
    "C57_positive_score_refuted",
    "C57_final_initial_refuted"
   ],
   "note": "Two undefined-behaviour findings as _refuted theorems."
  },
  {
   "property": "C58",
   "status": "proved",
   "theorems": [
    "C58_prune_general",
    "C58_prune",
    "C58_best_survives",
    "C58_initial_score_refuted"
   ],
   "note": "Initial score counted twice when non-zero (C58_initial_score_refuted, finding)."
  },
  {
   "property": "C59",
   "status": "proved",
   "theorems": [
    "C59_logFactorial",
    "C59_logCombmn",
    "C59_logNumbPerms",
    "C59_choose_none_refuted",
    "C59_gmp_exact"
   ],
   "note": "Finding (_refuted): logNumbPermsOfTwoElems(J,0) returns 1 where the logarithm of the number of arrangements is 0."
  },
  {
   "property": "C60",
   "status": "proved",
   "theorems": [
    "C60_poisson",
    "C60_geom",
    "C60_triang",
    "C60_triang_above_refuted",
    "C60_logarithmic"
   ],
   "note": "Finding (_refuted): triang_cdf returns 0 above its support instead of 1. norm_cdf (erf) is not modelled."
  },
  {
   "property": "C61",
   "status": "proved",
   "theorems": [
    "C61_visits_every_key_once"
   ],
   "note": "Stack-based iterator modelled literally."
  },
  {
   "property": "C62",
   "status": "proved",
   "theorems": [
    "C62_codes",
    "C62_injective",
    "C62_stable",
    "C62_repeated_new_word_refuted",
    "C62_loaded_vocabulary_refuted"
   ],
   "note": "Holds for histories in which addTableEntry is not given a new word twice in one history. Findings: repeated new word gets two codes; loading a vocabulary does not advance the code generator, so the next new word collides."
  },
  {
   "property": "C63",
   "status": "proved",
   "theorems": [
    "C63_print_lists_counts",
    "C63_print_load",
    "C63_reload",
    "C63_order",
    "C63_empty_file_order",
    "C63_blank_line_refuted",
    "C63_repeat_lost_refuted"
   ],
   "note": "Round trip proved; findings: repeated new history word is lost on load into a fresh program; a blank line sets the order to 2^32-2."
  },
  {
   "property": "C64",
   "status": "proved",
   "theorems": [
    "C64_perplexity",
    "C64_geometric_mean",
    "C64_blank_line_refuted",
    "C64_blank_first_line_refuted"
   ],
   "note": "Proved for corpora without blank lines. Findings: a blank line counts the previous sentence again; a blank first line adds an uninitialised value."
  },
  {
   "property": "C65",
   "status": "proved",
   "theorems": [
    "C65_entries_for_source",
    "C65_unigrams_refuted",
    "C65_target_count_refuted",
    "C65_relative_frequency"
   ],
   "note": "Proved for non-empty histories. Findings: nothing is ever returned for the empty history; cTrg starts at -99999 and compares the first word."
  },
  {
   "property": "C66",
   "status": "proved",
   "theorems": [
    "C66_sentence_probability",
    "C66_length_limits",
    "C66_best_alignment",
    "C66_stepwise",
    "C66_alignment_score_refuted",
    "C66_unknown_word_refuted"
   ],
   "note": "Findings: calcLgProbForAlig scores the alignment with every source position decreased by one (C66_alignment_score_refuted); a target word without any translation inherits the source position of the previous word (C66_unknown_word_refuted). Real arithmetic."
  },
  {
   "property": "C67",
   "status": "proved",
   "theorems": [
    "C67_expectations_sum_to_one",
    "C67_expectations_are_posteriors",
    "C67_expectation_step"
   ],
   "note": "Real arithmetic; thresholds 1e-6 and 0.1 are part of the specification estep."
  },
  {
   "property": "C68",
   "status": "proved",
   "theorems": [
    "C68_incremental_em",
    "C68_normalised",
    "C68_batch_training"
   ],
   "note": "Weights must be positive (with weight 0 the program mixes -infinity and the marker -99999, outside the model); anji matrix size bound: unlimited or 0."
  },
  {
   "property": "C69",
   "status": "proved",
   "theorems": [
    "C69_likelihood_never_decreases",
    "C69_weighted"
   ],
   "note": "Hypothesis thresholds_inactive: every probability and weighted expectation on the range is at least 1e-6."
  },
  {
   "property": "C70",
   "status": "proved",
   "theorems": [
    "C70_viterbi_optimal",
    "C70_smoothing_suffices",
    "C70_underflow_refuted",
    "C70_length_limit",
    "C70_null_word_refuted"
   ],
   "note": "Refuted parts: underflow (all paths <= exp(-99999)) and source word NULL."
  },
  {
   "property": "C71",
   "status": "proved",
   "theorems": [
    "C71_forward_is_sum",
    "C71_viterbi_below_forward"
   ],
   "note": ""
  },
  {
   "property": "C72",
   "status": "proved",
   "theorems": [
    "C72_transition_value",
    "C72_destinations",
    "C72_transitions_sum_to_one",
    "C72_unseen_length_refuted",
    "C72_lexical_sum",
    "C72_unseen_word_refuted"
   ],
   "note": "Refuted for unseen source lengths / words (mass = smoothing factor)."
  },
  {
   "property": "C73",
   "status": "proved",
   "theorems": [
    "C73_alignment_cache_transparent",
    "C73_member_cache_transparent"
   ],
   "note": ""
  },
  {
   "property": "C74",
   "status": "proved",
   "theorems": [
    "C74_posteriors",
    "C74_posteriors_plain",
    "C74_posteriors_sum"
   ],
   "note": ""
  },
  {
   "property": "C75",
   "status": "proved",
   "theorems": [
    "C75_incremental_statistics",
    "C75_totals",
    "C75_order"
   ],
   "note": ""
  },
  {
   "property": "C76",
   "status": "proved",
   "theorems": [
    "C76_length_probability",
    "C76_mass",
    "C76_constant_length",
    "C76_length_zero_refuted",
    "C76_negative_mean_refuted"
   ],
   "note": "erf is a parameter (any increasing function into (-1,1)); reals instead of float."
  },
  {
   "property": "C77",
   "status": "proved",
   "theorems": [
    "C77_gaps_exact",
    "C77_gaps_ordered",
    "C77_num_gaps"
   ],
   "note": ""
  },
  {
   "property": "C78",
   "status": "proved",
   "theorems": [
    "C78_reachable_well_formed",
    "C78_expand_exact",
    "C78_no_dead_end"
   ],
   "note": ""
  },
  {
   "property": "C79",
   "status": "proved",
   "theorems": [
    "C79_complete_iff_all_covered",
    "C79_counts",
    "C79_expansion_progress"
   ],
   "note": ""
  },
  {
   "property": "C80",
   "status": "proved",
   "theorems": [
    "C80_predecessor_undoes_extension",
    "C80_predecessor_refuted",
    "C80_null_has_no_predecessor",
    "C80_phrase_of_segment",
    "C80_phrase_of_other",
    "C80_alignment",
    "C80_isAligned",
    "C80_last_source_position"
   ],
   "note": "Finding: with only empty target phrases so far obtainPredecessorHypData reports no predecessor (C80_predecessor_refuted)."
  },
  {
   "property": "C81",
   "status": "proved",
   "theorems": [
    "C81_constraints_respected",
    "C81_complete_translation",
    "C81_text",
    "C81_unknown_word_copied",
    "C81_check_alone_refuted",
    "C81_check_exact"
   ],
   "note": "Assumes constraints as produced by the annotation parser (C82), a vocabulary that gives back the strings entered, and no constraint containing the literal unknown-word mark. C81_check_alone_refuted: the check function alone accepts translations breaking a constraint after its first word."
  },
  {
   "property": "C82",
   "status": "proved",
   "theorems": [
    "C82_annotations_read_back",
    "C82_plain_text",
    "C82_constraints_good",
    "C82_never_fails",
    "C82_blank_sentence_refuted"
   ],
   "note": "Round trip, plain text, totality and well-formedness for any input proved. Finding proved: a non-empty blank-only sentence reads element 0 of an empty vector."
  },
  {
   "property": "C83",
   "status": "proved",
   "theorems": [
    "C83_search_safe_sound_terminating",
    "C83_progress_is_finite"
   ],
   "note": "Search loop over the multi-stack container model; scores are integers (no float rounding); translation model abstract."
  },
  {
   "property": "C84",
   "status": "proved",
   "theorems": [
    "C84_best_translation",
    "C84_nbest_order",
    "C84_two_per_iteration_refuted",
    "C84_stale_search_order_refuted"
   ],
   "note": "I = 1 and room for the search space; findings: I = 2 not optimal, stale breadth-first flag."
  },
  {
   "property": "C85",
   "status": "proved",
   "theorems": [
    "C85_word_graph_of_the_search",
    "C85_breadth_first_graph_is_topological",
    "C85_best_first_order_refuted"
   ],
   "note": "Proved for every model with appending extensions and states that determine extensions. Finding: best-first search leaves arcs out of topological order."
  },
  {
   "property": "C86",
   "status": "proved",
   "theorems": [
    "C86_score_is_model_score",
    "C86_extension_defined",
    "C86_printed_components",
    "C86_components_give_score"
   ],
   "note": "Exact integer scores; vocabularies identified; custom and on-the-fly features out of the model."
  },
  {
   "property": "C87",
   "status": "proved",
   "theorems": [
    "C87_same_state_same_future",
    "C87_several_language_models_refuted"
   ],
   "note": "Holds with at most one language model; C87_several_language_models_refuted shows the failure of the shared history with two (finding)."
  },
  {
   "property": "C88",
   "status": "proved",
   "theorems": [
    "C88_table_is_best_segmentation",
    "C88_estimate_is_best_completion",
    "C88_never_underestimates",
    "C88_only_real_segments",
    "C88_distortion_estimate_refuted",
    "C88_distortion_estimate"
   ],
   "note": "Exact integer scores; C88_distortion_estimate_refuted is a finding about LOCAL_TD_HEURISTIC."
  },
  {
   "property": "C89",
   "status": "proved",
   "theorems": [
    "C89_best_options",
    "C89_options_above_threshold"
   ],
   "note": "W<1 is given by its logarithm, at most 0; W at least 1 by its integer part."
  },
  {
   "property": "C90",
   "status": "proved",
   "theorems": [
    "C90_decoder_optimal",
    "C90_decoder_safe",
    "C90_numberings_exist"
   ],
   "note": "C77-C89 put together: SearchModel run on the hypotheses of DecModel, the features of FeatModel and the heuristics of HeurModel (PbModel.v). Scores are exact integers. Best-first search requires the local heuristic to bound the gains (it does not in general: other features, constraints); proved as hypothesis, met in C90_nonvacuous. C90_numberings_exist shows that the numberings of hypotheses and states used by the model's containers exist."
  },
  {
   "property": "C91",
   "status": "proved",
   "theorems": [
    "C91_decoder_word_graph"
   ],
   "note": "C85 instantiated with the phrase-based model of C90; words are those of getTransInPlainTextVec."
  },
  {
   "property": "C92",
   "status": "proved",
   "theorems": [
    "C92_prefix_distance_is_cheapest",
    "C92_without_prefix_deletion",
    "C92_cost_cache",
    "C92_cost_cache_blank_refuted",
    "C92_nothing_typed_refuted",
    "C92_hit_means_equal_refuted"
   ],
   "note": "Integer costs, dc>0, non-empty words; the three known deviations are the _refuted theorems."
  },
  {
   "property": "C93",
   "status": "proved",
   "theorems": [
    "C93_correction_extends_prefix",
    "C93_inner_blank_refuted"
   ],
   "note": "Both PfsmEcm and PfsmEcmForWg variants; the deviation for inner blanks is the _refuted theorem."
  },
  {
   "property": "C94",
   "status": "proved",
   "theorems": [
    "C94_state_scores_are_smallest_distances",
    "C94_same_as_from_scratch",
    "C94_continued_prefix_refuted",
    "C94_shortened_prefix_refuted",
    "C94_later_agreement_refuted",
    "C94_initial_state_blank_refuted"
   ],
   "note": "Proved for histories satisfying 'reusable'; refuted theorems show stale columns for continued prefixes, shortened prefixes and later agreement (no break in getValidProcPrefixVec), and that the initial state is charged for the typed blank. Scores are exact integers; pruned arcs are left out of the arc list."
  },
  {
   "property": "C95",
   "status": "proved",
   "theorems": [
    "C95_best_path_is_optimal",
    "C95_path_scores_refuted"
   ],
   "note": "Proved when all paths to a state have the same weighted word-graph score (e.g. weight 0); refuted otherwise: wgScoreForState keeps the score of the arc processed last."
  },
  {
   "property": "C96",
   "status": "proved",
   "theorems": [
    "C96_nbest_corrections",
    "C96_every_correction_extends_the_prefix",
    "C96_substate_score_refuted",
    "C96_no_corrections_refuted"
   ],
   "note": "Scores are exact integers (the code rounds to float keys). The completion scores and the words of the best completion are parameters (their computation is C55/C57). Refuted: the score of a position inside an arc uses the completion score of the arc's start; n=0 is undefined."
  },
  {
   "property": "C97",
   "status": "proved",
   "theorems": [
    "C97_sentence_probability",
    "C97_best_alignment",
    "C97_unknown_word",
    "C97_stepwise",
    "C97_alignment_score_refuted"
   ],
   "note": "Floats as reals, log domain as LogNum.lg; sentence length model a parameter (C75). Refuted: calcLgProbForAlig scores the alignment shifted by one and omits the length probability."
  },
  {
   "property": "C98",
   "status": "proved",
   "theorems": [
    "C98_expectations_sum_to_one",
    "C98_expectation_step",
    "C98_expectations_are_posteriors"
   ],
   "note": "Reached tables: any session of additions/incremental training followed by batch rounds."
  },
  {
   "property": "C99",
   "status": "proved",
   "theorems": [
    "C99_incremental_em",
    "C99_normalised",
    "C99_batch_training"
   ],
   "note": "Both tables share the generic development NdProofs/NdTrain; the cells of a pair are re-counted (replaced) when trained again."
  },
  {
   "property": "C100",
   "status": "proved",
   "theorems": [
    "C100_likelihood_never_decreases",
    "C100_weighted"
   ],
   "note": "Hypothesis thresholds_inactive2: no 1e-6 floor active on the trained pairs (EM guarantee does not hold for floored counts). Unweighted (reported) and weighted versions."
  },
  {
   "property": "C101",
   "status": "proved",
   "theorems": [
    "C101_merge_lexical",
    "C101_merge_ibm2",
    "C101_merge_hmm",
    "C101_terminates",
    "C101_empty_files_refuted"
   ],
   "note": "Log arithmetic over the reals; C101_empty_files_refuted: with no records the tool reads element 0 of an empty vector (the shell script never merges empty files when a pair is usable: C102_runs)."
  },
  {
   "property": "C102",
   "status": "proved",
   "theorems": [
    "C102_chunks_equal_batch",
    "C102_runs"
   ],
   "note": "IBM model 2 (which contains the lexical table of model 1); the filter step is included; the script's final pruning is C104, not part of this theorem."
  },
  {
   "property": "C103",
   "status": "proved",
   "theorems": [
    "C103_filter",
    "C103_missing_key_refuted"
   ],
   "note": "C103_missing_key_refuted is a defect of the tool; the training script only asks for keys that are in the table (used in C102)."
  },
  {
   "property": "C104",
   "status": "proved",
   "theorems": [
    "C104_prune",
    "C104_normalised"
   ],
   "note": "Sorting of a source's targets modelled as any permutation sorted by count."
  },
  {
   "property": "C105",
   "status": "proved",
   "theorems": [
    "C105_expectation_step",
    "C105_state_posterior",
    "C105_first_null_states_refuted"
   ],
   "note": "E-step = clamped relative joints over all state paths, both variants; refuted: NULL states of the first target word share the expectation of state n+1."
  },
  {
   "property": "C106",
   "status": "proved",
   "theorems": [
    "C106_incremental_em",
    "C106_batch_training",
    "C106_null_rows_refuted",
    "C106_null_rows_never_read"
   ],
   "note": "Session simulation against the incremental-EM interpreter of HmmTrainSpec.v, plus batch training from any state; refuted: rows of NULL states are stored but never read, so shared rows hold too little. Real arithmetic; caches (C73) and length model (C75) apart."
  },
  {
   "property": "C107",
   "status": "proved",
   "theorems": [
    "C107_transitions_sum_to_one",
    "C107_lexical_sum_to_one"
   ],
   "note": "From C106 and C72: rows of trained lengths are complete."
  },
  {
   "property": "C108",
   "status": "proved",
   "theorems": [
    "C108_word_level_counts",
    "C108_training_counts",
    "C108_incremental",
    "C108_vectors",
    "C108_vectors_of_other_lengths",
    "C108_reserved_word_refuted"
   ],
   "note": "HatTriePhraseTable (the default table) with integral counts; BRF estimation and segmentation-length tables are not modelled; the alignment file reader is not modelled. Refuted variant: a phrase containing <UNUSED_WORD> shares its count with another pair."
  },
  {
   "property": "C109",
   "status": "proved",
   "theorems": [
    "C109_probabilities",
    "C109_targets_sum_to_one",
    "C109_sources_sum_to_one"
   ],
   "note": "Exact real logarithms instead of double."
  },
  {
   "property": "C110",
   "status": "proved",
   "theorems": [
    "C110_printed_lines",
    "C110_print_load",
    "C110_load",
    "C110_empty_table_refuted",
    "C110_separator_word_refuted",
    "C110_empty_source_refuted"
   ],
   "note": "Counts integral, printed with %.8f. Refuted variants: empty table (begin() walks past the end), the word |||, an empty source phrase."
  },
  {
   "property": "C111",
   "status": "proved",
   "theorems": [
    "C111_printed_numbers",
    "C111_one_field",
    "C111_exact_refuted"
   ],
   "note": "Doubles as exact rationals; atof's own rounding to double, infinities, NaN and -0 are left out. Refuted variant: values are not kept exactly."
  },
  {
   "property": "C112",
   "status": "proved",
   "theorems": [
    "C112_print_load",
    "C112_initial_score_refuted",
    "C112_initial_final_refuted",
    "C112_separator_refuted",
    "C112_backward_refuted"
   ],
   "note": "printOnlyUsefulStates=false. Refuted variants: initial-state score lost; final state without incoming arc lost; first word ||| without components; backward arc after pruning (out-of-range write in load)."
  },
  {
   "property": "C113",
   "status": "proved",
   "theorems": [
    "C113_rescoring",
    "C113_last_weights"
   ],
   "note": "Exact arithmetic instead of double."
  },
  {
   "property": "C114",
   "status": "proved",
   "theorems": [
    "C114_read_back",
    "C114_lists",
    "C114_brace_word_refuted"
   ],
   "note": "GIZA format printed and read back; C114_brace_word_refuted: a source word ({ breaks the entry. numReps is an exact rational (float in the code)."
  },
  {
   "property": "C115",
   "status": "proved",
   "theorems": [
    "C115_operations",
    "C115_output_readable"
   ],
   "note": "all six operations, both transposition flags, zipped over the two files; output read back by C114."
  },
  {
   "property": "C116",
   "status": "proved",
   "theorems": [
    "C116_any_files",
    "C116_any_file_read",
    "C116_damage_reported_refuted",
    "C116_later_entries_refuted"
   ],
   "note": "totality for any file contents; C116_damage_reported_refuted and C116_later_entries_refuted are findings."
  },
  {
   "property": "C117",
   "status": "proved",
   "theorems": [
    "C117_read_back"
   ],
   "note": "second format."
  },
  {
   "property": "C118",
   "status": "proved",
   "theorems": [
    "C118_compact",
    "C118_counts_refuted"
   ],
   "note": "Entries are storable (sentences of plain words without the opening brace token, matrix of matching size) and fewer than 2^31; C118_counts_refuted: file counts ignored. The 256-byte file name buffer (sprintf of a longer path overflows it) is not modelled."
  },
  {
   "property": "C119",
   "status": "proved",
   "theorems": [
    "C119_operations"
   ],
   "note": "chain composes op_spec (C115) over the operands of the pair; kept = first entry of the pair, then chain."
  },
  {
   "property": "C120",
   "status": "proved",
   "theorems": [
    "C120_no_compact",
    "C120_transposed_refuted"
   ],
   "note": "C120_transposed_refuted exhibits the loss with a transposed container."
  },
  {
   "property": "C121",
   "status": "proved",
   "theorems": [
    "C121_sentence",
    "C121_corpus",
    "C121_identical_refuted"
   ],
   "note": "edits = cheapest edit script with unit costs (C13's specification); ed itself is modelled row by row."
  },
  {
   "property": "C122",
   "status": "proved",
   "theorems": [
    "C122_matches",
    "C122_sentence",
    "C122_order_irrelevant",
    "C122_corpus",
    "C122_nothing_common_refuted"
   ],
   "note": "std::sort is any permutation ordered by size; C122_order_irrelevant, C122_nothing_common_refuted."
  },
  {
   "property": "C123",
   "status": "proved",
   "theorems": [
    "C123_value",
    "C123_range",
    "C123_corpus",
    "C123_precision_refuted"
   ],
   "note": "Exact rationals for float/double; the counting loops are those of bleu.cc (C37). C123_precision_refuted: s = a, r = abcd gives mean precision 4. calculate_chrf_file is not modelled."
  },
  {
   "property": "C124",
   "status": "proved",
   "theorems": [
    "C124_update",
    "C124_corpus",
    "C124_step_unique",
    "C124_weights_refuted"
   ],
   "note": "Exact rationals; the scorer is any object with a background state. C124_weights_refuted: with no restarts, or a quality that is never positive (an error rate), the weights come back empty."
  },
  {
   "property": "C125",
   "status": "proved",
   "theorems": [
    "C125_best",
    "C125_hope_fear"
   ],
   "note": "Exact rationals; -DBL_MAX is below every score."
  },
  {
   "property": "C126",
   "status": "proved",
   "theorems": [
    "C126_order",
    "C126_moves_refuted"
   ],
   "note": "C126_moves_refuted: the shuffle draws rand()%k (not k+1), so the order always is one cycle: an example never keeps its position (with two examples they are always swapped)."
  },
  {
   "property": "C127",
   "status": "proved",
   "theorems": [
    "C127_terminates",
    "C127_determined",
    "C127_extra"
   ],
   "note": "Exact rationals; the offsets pn, qn of the initial simplex are arbitrary parameters (they are irrational in the code); the file is the list of its values."
  },
  {
   "property": "C128",
   "status": "proved",
   "theorems": [
    "C128_best",
    "C128_limit_refuted"
   ],
   "note": "C128_limit_refuted: convergence in iteration MAX_IT is reported as DSO_NMAX_ERROR."
  },
  {
   "property": "C129",
   "status": "proved",
   "theorems": [
    "C129_moves",
    "C129_stale_refuted"
   ],
   "note": "C129_stale_refuted: after a failed contraction the moved vertices other than the worst and the second worst keep the old values (step_by_step_dhs.c:303-333), and the search may stop as converged with a vertex of value 100 counted as 0."
  },
  {
   "property": "C130",
   "status": "proved",
   "theorems": [
    "C130_fixed",
    "C130_initial",
    "C130_too_many_refuted"
   ],
   "note": "C130_too_many_refuted: gen_init_sol loops over initVals and reads fixedVarsBoolVec out of range."
  },
  {
   "property": "C131",
   "status": "proved",
   "theorems": [
    "C131_not_a_prefix",
    "C131_keeps_prefix",
    "C131_same_words",
    "C131_split_word_refuted",
    "C131_tab_refuted"
   ],
   "note": "Model CatModel.merge_loop/robustMergeTransWithUserPref. Proved for all tab-free texts: prefix kept, words equal when the last prefix word is open or is a complete word of the answer. Refuted: 'the ho ' (completed word) with answer 'the house' gives 'the ho use'; with a tab in the prefix the typed characters are lost."
  },
  {
   "property": "C132",
   "status": "proved",
   "theorems": [
    "C132_typed_prefix",
    "C132_shown_prefix",
    "C132_shown_prefix_raw",
    "C132_defined",
    "C132_overread_refuted",
    "C132_raw_tab_refuted"
   ],
   "note": "Invariant over sessions, with all virtual calls as arbitrary functions that may differ per call. Preprocessing mode unconditional when defined; raw mode for tab-free texts. Well-definedness for a pre-processor giving single-spaced text; refuted otherwise: a prefix with several trailing blanks makes postprocWithCriticalError read beyond the end of the translation."
  },
  {
   "property": "C133",
   "status": "proved",
   "theorems": [
    "C133_pass_through",
    "C133_empty_prefix_refuted",
    "C133_mark_refuted"
   ],
   "note": "Proved for non-empty prefixes without '<' and NUL. Refuted: setPref(\"\") puts a blank in front of the translation; a prefix containing <END_OF_PREF_MARK> cuts the text at the wrong place."
  },
  {
   "property": "C134",
   "status": "proved",
   "theorems": [
    "C134_not_expanded",
    "C134_expanded",
    "C134_last_word",
    "C134_completion",
    "C134_no_completion",
    "C134_completion_refuted"
   ],
   "note": "Refuted part: one common first letter suffices for getWordCompletion, so 'ho'/'hxyz' completes with 'yz'."
  },
  {
   "property": "C135",
   "status": "proved",
   "theorems": [
    "C135_contents",
    "C135_others_kept",
    "C135_assign",
    "C135_prefix_data",
    "C135_clear_refuted"
   ],
   "note": "Any key and data types (Section variables, discharged). Refuted part: clear() leaves the data of the object's own node, so the first sequence inserted afterwards gives its first key the old data."
  },
  {
   "property": "C136",
   "status": "proved",
   "theorems": [
    "C136_iteration",
    "C136_shape"
   ],
   "note": "Iterator modelled as its stack of nodes; enumeration proved equal to the post-order listing. countSparseNodes, erase (does not compile when instantiated) and the copy constructor (loses the keys) not modelled."
  },
  {
   "property": "C137",
   "status": "proved",
   "theorems": [
    "C137_suffixes",
    "C137_best",
    "C137_clear_refuted",
    "C137_empty_input_refuted",
    "C137_empty_word_refuted",
    "C137_blocks"
   ],
   "note": "Counts are natural numbers (Count is a float: no rounding modelled). Ties: equal counts overwrite each other in the map, one suffix remains per count (part of the statement). Refuted: clear() followed by new sentences still counts an old word; for an empty input the suffixes lack the first letter; an empty word is counted for the first letter."
  },
  {
   "property": "C138",
   "status": "proved",
   "theorems": [
    "C138_directory",
    "C138_absolutize",
    "C138_library"
   ],
   "note": "Proved for all names."
  },
  {
   "property": "C139",
   "status": "proved",
   "theorems": [
    "C139_round_trip",
    "C139_comments",
    "C139_skipped",
    "C139_short_refuted",
    "C139_no_library_refuted",
    "C139_not_descriptor"
   ],
   "note": "Proved for entries with a library name; refuted: a line of fewer than three words before a # is accepted as an entry (C139_short_refuted), an entry without library is lost (C139_no_library_refuted)."
  },
  {
   "property": "C140",
   "status": "proved",
   "theorems": [
    "C140_main",
    "C140_parameters_refuted",
    "C140_comment_refuted"
   ],
   "note": "Proved when libraries have no parameters; refuted otherwise (C140_parameters_refuted) and for commented-out entries (C140_comment_refuted)."
  },
  {
   "property": "C141",
   "status": "proved",
   "theorems": [
    "C141_lookup",
    "C141_order",
    "C141_round_trip",
    "C141_reload",
    "C141_lost_refuted"
   ],
   "note": "Proved; refuted for the empty sentence and names with blanks (C141_lost_refuted)."
  },
  {
   "property": "C142",
   "status": "proved",
   "theorems": [
    "C142_estimates",
    "C142_sums_to_one",
    "C142_round_trip",
    "C142_far",
    "C142_bound_refuted",
    "C142_constant_refuted"
   ],
   "note": "Proved for lengths up to 100; refuted: length 101 passes the guard and reads or writes outside the arrays (C142_bound_refuted), the constant table is not a distribution and changes when reloaded (C142_constant_refuted)."
  },
  {
   "property": "C143",
   "status": "proved",
   "theorems": [
    "C143_sentence",
    "C143_reference",
    "C143_prefix",
    "C143_weighted_end_refuted",
    "C143_no_features_refuted",
    "C143_longer_refuted",
    "C143_prefix_end_refuted"
   ],
   "note": "Exact integer scores. Violations are stated as _refuted theorems. Refuted: end-of-sentence score not weighted, empty feature list reads back() of an empty vector, longer partial translations read outside, the prefix heuristic counts an end of sentence."
  },
  {
   "property": "C144",
   "status": "proved",
   "theorems": [
    "C144_best",
    "C144_known",
    "C144_all_known_refuted",
    "C144_two_words",
    "C144_four_grams_refuted"
   ],
   "note": "Violations are stated as _refuted theorems. Refuted: suffixes with equal counts overwrite each other in the list, so a more probable word may not be considered; two words of context are not enough for 4-gram models."
  },
  {
   "property": "C145",
   "status": "proved",
   "theorems": [
    "C145_one",
    "C145_interpolation",
    "C145_close",
    "C145_range_refuted",
    "C145_perplexity",
    "C145_no_pairs_refuted"
   ],
   "note": "Real arithmetic, rounding not modelled. Violations are stated as _refuted theorems. Refuted: weights outside [0,1] (set_lambda is unchecked) give NaN; 0/0 without pairs."
  },
  {
   "property": "C146",
   "status": "proved",
   "theorems": [
    "C146_ends",
    "C146_result",
    "C146_better",
    "C146_one_refuted"
   ],
   "note": "Exact rationals between the %g round trips. The perplexity of the corpus is any partial function (None: THOT_ERROR). Violations are stated as _refuted theorems. Refuted: initial weights of 1 are returned as successful without looking at the corpus."
  },
  {
   "property": "C147",
   "status": "proved",
   "theorems": [
    "C147_loaded",
    "C147_missing",
    "C147_no_bars_refuted",
    "C147_overwritten_refuted",
    "C147_unreported_refuted"
   ],
   "note": "Maps keep insertion order in the model, std::map order is not modelled. Violations are stated as _refuted theorems. Refuted: malformed lines are inserted with a score never assigned and may overwrite entries; the error code is ignored."
  },
  {
   "property": "C148",
   "status": "proved",
   "theorems": [
    "C148_history",
    "C148_last",
    "C148_unknown_refuted"
   ],
   "note": "Violations are stated as _refuted theorems. Refuted: unknown pairs (score 0) are preferred to known pairs with log-probabilities."
  },
  {
   "property": "C149",
   "status": "proved",
   "theorems": [
    "C149_nothing_typed",
    "C149_correction",
    "C149_empty_output_refuted",
    "C149_empty_word_refuted",
    "C149_one_refuted"
   ],
   "note": "Composed with C93 for the error correction model. Violations are stated as _refuted theorems. Refuted: empty output sentence and empty last typed word read outside; never more than one correction."
  },
  {
   "property": "C150",
   "status": "proved",
   "theorems": [
    "C150_assignment",
    "C150_assignment_unique",
    "C150_constraints_good",
    "C150_plain"
   ],
   "note": ""
  },
  {
   "property": "C151",
   "status": "proved",
   "theorems": [
    "C151_in_order_complete",
    "C151_only_in_order",
    "C151_over_the_end_refuted",
    "C151_lost_tag_refuted",
    "C151_other_element_refuted"
   ],
   "note": ""
  },
  {
   "property": "C152",
   "status": "proved",
   "theorems": [
    "C152_weights_in_force",
    "C152_sentence_weights_end",
    "C152_weights_used"
   ],
   "note": ""
  },
  {
   "property": "C153",
   "status": "proved",
   "theorems": [
    "C153_update",
    "C153_empty_nbest",
    "C153_empty_nbest_next_refuted",
    "C153_surplus_weights_refuted",
    "C153_empty_nbest_next"
   ],
   "note": ""
  },
  {
   "property": "C154",
   "status": "proved",
   "theorems": [
    "C154_lambda_files",
    "C154_lambda_lines",
    "C154_missing_file"
   ],
   "note": ""
  },
  {
   "property": "C155",
   "status": "proved",
   "theorems": [
    "C155_counts_once",
    "C155_default",
    "C155_uneven_refuted",
    "C155_no_iterations_refuted"
   ],
   "note": "Holds for E dividing R (default E=1, R=0); refuted otherwise: statistics discarded too early are counted twice; E=0 divides by zero. Extraction results arbitrary at each visit; sample numbers below 2^31."
  },
  {
   "property": "C156",
   "status": "proved",
   "theorems": [
    "C156_schedule",
    "C156_at_once",
    "C156_uneven_refuted"
   ],
   "note": "Refuted when E does not divide R: with E=2, R=3 a new sentence pair is not learned from on arrival."
  },
  {
   "property": "C157",
   "status": "proved",
   "theorems": [
    "C157_script",
    "C157_unterminated_refuted",
    "C157_missing_file_refuted",
    "C157_unknown_operation_refuted"
   ],
   "note": "Scripts of terminated lines naming existing files other than the output file. Refuted: an unterminated last line loses its last character and is rejected; a missing file empties the output file; an unknown operation replaces the alignments by what the output file had."
  },
  {
   "property": "C158",
   "status": "proved",
   "theorems": [
    "C158_entries"
   ],
   "note": "By C157 and C115; the combination of two entries is GizaSpec.combined."
  },
  {
   "property": "C159",
   "status": "proved",
   "theorems": [
    "C159_exhaustive",
    "C159_failure_unreported_refuted"
   ],
   "note": "Through C119. Refuted: a step whose file does not exist ends the script without being reported, and the result so far is written with exit status 0."
  }
 ]
}