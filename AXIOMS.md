# What Print Assumptions lists

Generated by tools/gen_axioms.py.

## Closed under the global context (no axiom)

C01_phrase_key_roundtrip, C01_phrase_key_bytes_nonzero, C01_unbounded_words_refuted, C02_same_kind_distinct, C02_kinds_disjoint, C02_empty_target_refuted, C03_ngram_key_roundtrip, C03_ngram_key_injective, C03_null_key_fresh, C03_ngram_key_order, C03_shorter_ngrams_first, C04_lex_key_roundtrip, C04_lex_key_order, C04_float_roundtrip, C05_range_scan_exact, C05_found_flag, C05_last_word_lost_refuted, C06_set_changes_only_bit_n, C06_reset_changes_only_bit_n, C06_test_reads_bit, C06_reset_all_clears, C06_set_all_sets, C06_ulong_roundtrip, C07_or_pointwise, C07_and_pointwise, C07_xor_pointwise, C07_equality_is_same_bits, C08_order_is_numeric, C08_strict_total_order, C09_increment, C09_plus_when_small, C09_plus_refuted, C10_shift_right, C10_count, C10_count_beyond_words_refuted, C11_sorted, C11_find_last_pushed, C11_size_counts_keys, C11_pop_removes_largest, C12_find, C12_insert_total, C12_size, C12_height, C13_edit_distance_is_cheapest_script, C14_operation_counts_of_a_cheapest_script, C14_weighted_counts_sum_to_distance, C15_prefix_distance, C15_prefix_operations, C15_without_prefix_operation_is_plain, C15_empty_target_refuted, C16_set_operations, C16_different_dimensions_unchanged, C16_difference_refuted, C16_flip_is_complement, C17_transpose, C17_transpose_links, C17_transpose_involutive, C18_symmetr1, C18_symmetr2, C18_growDiagFinal, C18_growDiagFinal_phases, C18_different_dimensions_unchanged, C19_put_links, C19_put_wrong_length_unchanged, C19_get_characterization, C19_put_get_roundtrip_refuted, C20_vocabulary_contents, C20_vocabulary_bijection, C21_save_load_roundtrip, C21_reload_is_unobservable, C21_gapped_file_refuted, C22_tokenize_is_words, C22_join_then_split, C22_tokens_are_clean, C22_split_C_string, C23_number_of_fields, C23_field_access, C23_whole_line, C24_terminated_lines, C24_unterminated_line_refuted, C25_addTableEntry, C25_incrCountsOfEntry, C25_contents, C25_defined, C25_unknown_source_refuted, C26_source_marginal, C26_target_marginal, C26_target_distribution, C26_source_distribution, C27_queries_preserve_counts, C28_hattrie_agrees, C28_leveldb_agrees, C28_leveldb_overwrites_refuted, C29_leveldb_numer, C29_leveldb_denom, C29_leveldb_set_both, C29_memory_numer, C29_memory_denom, C29_memory_translations, C29_memory_found_flag_refuted, C30_binary_round_trip, C31_session_without_counts, C31_session_with_counts, C31_short_target_rejected, C31_short_count_file_refuted, C32_round_trip, C32_fragmentation_refuted, C32_cut_at_zero_byte, C32_write_failure_unnoticed_refuted, C33_keeps_best, C33_ties, C33_push_result, C33_history, C33_top_last, C33_capacity_zero, C34_safe, C34_unique, C34_complete, C34_default_class, C34_default_class_refuted, C34_shared_state_refuted, C34_shrinking_refuted, C35_pop, C35_top, C35_top_refuted, C35_removeLast, C35_removeLast_worst_refuted, C36_contents, C36_unique, C36_stable, C37_prec_n, C37_ngrams, C37_at_most_total, C37_symmetric, C37_identical, C37_corpus, C37_short_system_file, C38_numbering, C38_unique, C38_asked_name, C38_generated_fresh, C38_calls_finish, C39_exclusive, C39_same_user, C39_own_data, C39_print_overlaps_translation, C39_release_under_translation_refuted, C39_translate_after_release_refuted, C39_table_grows_while_locked_refuted, C39_clear_races_with_lookup_refuted, C40_progress, C40_schedules_finite, C40_all_calls_finish, C40_failed_init_blocks_forever, C40_deadlock_refuted, C41_fifo_cells, C41_fifo_visits, C41_bound, C41_save_load, C41_load_into_zero_refuted, C41_load_into_bounded_refuted, C41_mixed_use_refuted, C42_spans, C42_sound, C42_complete, C42_whole_target_refuted, C42_empty_source_refuted, C42_too_long_refuted, C43_och_exact, C43_unaligned_gap_refuted, C44_rest_is_best_completion, C44_rest_exact, C44_unordered_refuted, C45_terminates, C45_sound, C45_optimal, C45_no_drop, C45_components, C45_final_with_successors_refuted, C46_adjacency, C46_defined, C46_order, C46_order_refuted, C47_useful, C47_paths_kept, C47_no_new_paths, C47_unreachable_final_refuted, C48_insertions_are_stable_descending_sort, C48_always_descending, C48_prune_removes_exactly_below, C48_best_is_max, C49_state, C49_step, C49_score_given_state, C50_distribution, C50_sums_to_one, C50_positive, C50_extra_bos, C50_default_weights_refuted, C50_mass_lost_refuted, C51_table_counts, C51_consistent, C51_joint_le_history, C51_table_history, C51_string_counts, C51_string_totals, C53_last_word_after_a_blank, C53_single_word_refuted, C54_string_prefix, C54_sentence_prefix, C54_trailing_blank, C55_stl_entries_for_target, C55_stl_empty_table_refuted, C55_stl_entries_for_source, C55_hattrie_entries_for_target, C55_hattrie_entries_for_source, C55_leveldb_entries_for_target, C57_best_path, C57_no_path, C57_positive_score_refuted, C57_final_initial_refuted, C58_prune_general, C58_prune, C58_best_survives, C58_initial_score_refuted, C59_gmp_exact, C61_visits_every_key_once, C62_codes, C62_injective, C62_stable, C62_repeated_new_word_refuted, C62_loaded_vocabulary_refuted, C63_print_lists_counts, C63_print_load, C63_reload, C63_order, C63_empty_file_order, C63_blank_line_refuted, C63_repeat_lost_refuted, C65_entries_for_source, C65_unigrams_refuted, C65_target_count_refuted, C65_relative_frequency, C70_null_word_refuted, C72_destinations, C77_gaps_exact, C77_gaps_ordered, C77_num_gaps, C78_reachable_well_formed, C78_expand_exact, C78_no_dead_end, C79_complete_iff_all_covered, C79_counts, C79_expansion_progress, C80_predecessor_undoes_extension, C80_predecessor_refuted, C80_null_has_no_predecessor, C80_phrase_of_segment, C80_phrase_of_other, C80_alignment, C80_isAligned, C80_last_source_position, C81_constraints_respected, C81_complete_translation, C81_text, C81_unknown_word_copied, C81_check_alone_refuted, C81_check_exact, C82_annotations_read_back, C82_plain_text, C82_constraints_good, C82_never_fails, C82_blank_sentence_refuted, C83_search_safe_sound_terminating, C83_progress_is_finite, C84_best_translation, C84_nbest_order, C84_two_per_iteration_refuted, C84_stale_search_order_refuted, C85_word_graph_of_the_search, C85_breadth_first_graph_is_topological, C85_best_first_order_refuted, C86_score_is_model_score, C86_extension_defined, C86_printed_components, C86_components_give_score, C87_same_state_same_future, C87_several_language_models_refuted, C88_table_is_best_segmentation, C88_estimate_is_best_completion, C88_never_underestimates, C88_only_real_segments, C88_distortion_estimate_refuted, C88_distortion_estimate, C89_best_options, C89_options_above_threshold, C90_decoder_optimal, C90_decoder_safe, C90_numberings_exist, C91_decoder_word_graph, C92_prefix_distance_is_cheapest, C92_without_prefix_deletion, C92_cost_cache, C92_cost_cache_blank_refuted, C92_nothing_typed_refuted, C92_hit_means_equal_refuted, C93_correction_extends_prefix, C93_inner_blank_refuted, C94_state_scores_are_smallest_distances, C94_same_as_from_scratch, C94_continued_prefix_refuted, C94_shortened_prefix_refuted, C94_later_agreement_refuted, C94_initial_state_blank_refuted, C95_best_path_is_optimal, C95_path_scores_refuted, C96_nbest_corrections, C96_every_correction_extends_the_prefix, C96_substate_score_refuted, C96_no_corrections_refuted, C103_filter, C103_missing_key_refuted, C108_word_level_counts, C108_training_counts, C108_incremental, C108_vectors, C108_vectors_of_other_lengths, C108_reserved_word_refuted, C110_printed_lines, C110_print_load, C110_load, C110_empty_table_refuted, C110_separator_word_refuted, C110_empty_source_refuted, C111_printed_numbers, C111_one_field, C111_exact_refuted, C112_print_load, C112_initial_score_refuted, C112_initial_final_refuted, C112_separator_refuted, C112_backward_refuted, C113_rescoring, C113_last_weights, C114_read_back, C114_lists, C114_brace_word_refuted, C115_operations, C115_output_readable, C116_any_files, C116_any_file_read, C116_damage_reported_refuted, C116_later_entries_refuted, C117_read_back, C118_compact, C118_counts_refuted, C119_operations, C120_no_compact, C120_transposed_refuted, C121_sentence, C121_corpus, C121_identical_refuted, C122_matches, C122_sentence, C122_order_irrelevant, C122_corpus, C122_nothing_common_refuted, C123_value, C123_range, C123_corpus, C123_precision_refuted, C124_update, C124_corpus, C124_step_unique, C124_weights_refuted, C125_best, C125_hope_fear, C126_order, C126_moves_refuted, C127_terminates, C127_determined, C127_extra, C128_best, C128_limit_refuted, C129_moves, C129_stale_refuted, C130_fixed, C130_initial, C130_too_many_refuted, C131_not_a_prefix, C131_keeps_prefix, C131_same_words, C131_split_word_refuted, C131_tab_refuted, C132_typed_prefix, C132_shown_prefix, C132_shown_prefix_raw, C132_defined, C132_overread_refuted, C132_raw_tab_refuted, C133_pass_through, C133_empty_prefix_refuted, C133_mark_refuted, C134_not_expanded, C134_expanded, C134_last_word, C134_completion, C134_no_completion, C134_completion_refuted, C135_contents, C135_others_kept, C135_assign, C135_prefix_data, C135_clear_refuted, C136_iteration, C136_shape, C137_suffixes, C137_best, C137_clear_refuted, C137_empty_input_refuted, C137_empty_word_refuted, C137_blocks, C138_directory, C138_absolutize, C138_library, C139_round_trip, C139_comments, C139_skipped, C139_short_refuted, C139_no_library_refuted, C139_not_descriptor, C140_main, C140_parameters_refuted, C140_comment_refuted, C141_lookup, C141_order, C141_round_trip, C141_reload, C141_lost_refuted, C142_estimates, C142_sums_to_one, C142_round_trip, C142_far, C142_bound_refuted, C142_constant_refuted, C143_sentence, C143_reference, C143_prefix, C143_weighted_end_refuted, C143_no_features_refuted, C143_longer_refuted, C143_prefix_end_refuted, C144_best, C144_known, C144_all_known_refuted, C144_two_words, C144_four_grams_refuted, C145_perplexity, C145_no_pairs_refuted, C146_ends, C146_result, C146_better, C146_one_refuted, C147_loaded, C147_missing, C147_no_bars_refuted, C147_overwritten_refuted, C147_unreported_refuted, C148_history, C148_last, C148_unknown_refuted, C149_nothing_typed, C149_correction, C149_empty_output_refuted, C149_empty_word_refuted, C149_one_refuted, C150_assignment, C150_assignment_unique, C150_constraints_good, C150_plain, C151_in_order_complete, C151_only_in_order, C151_over_the_end_refuted, C151_lost_tag_refuted, C151_other_element_refuted, C152_weights_in_force, C152_sentence_weights_end, C152_weights_used, C153_update, C153_empty_nbest, C153_empty_nbest_next_refuted, C153_surplus_weights_refuted, C153_empty_nbest_next, C154_lambda_files, C154_lambda_lines, C154_missing_file, C155_counts_once, C155_default, C155_uneven_refuted, C155_no_iterations_refuted, C156_schedule, C156_at_once, C156_uneven_refuted, C157_script, C157_unterminated_refuted, C157_missing_file_refuted, C157_unknown_operation_refuted, C158_entries, C159_exhaustive, C159_failure_unreported_refuted

## `ClassicalDedekindReals.sig_forall_dec`, `FunctionalExtensionality.functional_extensionality_dep`

C60_triang, C60_triang_above_refuted, C75_totals

## `ClassicalDedekindReals.sig_forall_dec`, `ClassicalDedekindReals.sig_not_dec`, `FunctionalExtensionality.functional_extensionality_dep`

C67_expectations_sum_to_one, C75_incremental_statistics, C75_order, C76_mass, C98_expectations_sum_to_one

## `ClassicalDedekindReals.sig_forall_dec`, `ClassicalDedekindReals.sig_not_dec`, `Classical_Prop.classic`, `FunctionalExtensionality.functional_extensionality_dep`

C49_sentence, C49_sentence_product, C52_sumlog, C52_sublog, C52_sum_sub, C52_roundtrip, C56_range, C56_perfect, C56_short_sentences_refuted, C59_logFactorial, C59_logCombmn, C59_logNumbPerms, C59_choose_none_refuted, C60_poisson, C60_geom, C60_logarithmic, C64_perplexity, C64_geometric_mean, C64_blank_line_refuted, C64_blank_first_line_refuted, C66_sentence_probability, C66_length_limits, C66_best_alignment, C66_stepwise, C66_alignment_score_refuted, C66_unknown_word_refuted, C67_expectations_are_posteriors, C67_expectation_step, C68_incremental_em, C68_normalised, C68_batch_training, C69_likelihood_never_decreases, C69_weighted, C70_viterbi_optimal, C70_smoothing_suffices, C70_underflow_refuted, C70_length_limit, C71_forward_is_sum, C71_viterbi_below_forward, C72_transition_value, C72_transitions_sum_to_one, C72_unseen_length_refuted, C72_lexical_sum, C72_unseen_word_refuted, C73_alignment_cache_transparent, C73_member_cache_transparent, C74_posteriors, C74_posteriors_plain, C74_posteriors_sum, C76_length_probability, C76_constant_length, C76_length_zero_refuted, C76_negative_mean_refuted, C97_sentence_probability, C97_best_alignment, C97_unknown_word, C97_stepwise, C97_alignment_score_refuted, C98_expectation_step, C98_expectations_are_posteriors, C99_incremental_em, C99_normalised, C99_batch_training, C100_likelihood_never_decreases, C100_weighted, C101_merge_lexical, C101_merge_ibm2, C101_merge_hmm, C101_terminates, C101_empty_files_refuted, C102_chunks_equal_batch, C102_runs, C104_prune, C104_normalised, C105_expectation_step, C105_state_posterior, C105_first_null_states_refuted, C106_incremental_em, C106_batch_training, C106_null_rows_refuted, C106_null_rows_never_read, C107_transitions_sum_to_one, C107_lexical_sum_to_one, C109_probabilities, C109_targets_sum_to_one, C109_sources_sum_to_one, C145_one, C145_interpolation, C145_close, C145_range_refuted
