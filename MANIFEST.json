{"claims": [
 {"property": "C01", "status": "proved", "theorems": ["C01_plain_text_is_one_literal"], "note": ""},
 {"property": "C02", "status": "proved", "theorems": ["C02_written_templates_parse_back", "C02_parser_accepts_exactly_the_syntax", "C02_writing_is_unambiguous", "C02_tabs_are_blanks", "C02_parser_accepts_exactly_the_syntax_with_tabs"], "note": "both directions, for texts without comments and tabs; the writing relation covers every documented construct and is shown unambiguous"},
 {"property": "C03", "status": "proved", "theorems": ["C03_parsing_ends", "C03_depth_is_enough", "C03_the_other_exception_occurs"], "note": "AttributeError is exhibited; Python recursion limit not modelled"},
 {"property": "C04", "status": "proved", "theorems": ["C04_comment_text_is_irrelevant", "C04_comment_leaves_no_trace", "C04_final_comment_leaves_no_trace"], "note": "line comments after plain text, anything after the comment; explicit result for plain text around"},
 {"property": "C05", "status": "proved", "theorems": ["C05_bounds_normalised", "C05_clamp_in_range", "C05_clamp_keeps_valid", "C05_clamp_keeps_order"], "note": ""},
 {"property": "C06", "status": "proved", "theorems": ["C06_combinations_are_the_selections", "C06_each_selection_once", "C06_in_order", "C06_count", "C06_empty_selection"], "note": ""},
 {"property": "C07", "status": "proved", "theorems": ["C07_draw_without_replacement", "C07_failure", "C07_success_with_positive_weights"], "note": ""},
 {"property": "C08", "status": "proved", "theorems": ["C08_first_pick_has_positive_weight", "C08_later_picks_refuted"], "note": "first pick proved; the claim for later picks is refuted by a concrete run, as the property says"},
 {"property": "C09", "status": "proved", "theorems": ["C09_step_keeps_pairing_iff", "C09_equal_weights_keep_pairing", "C09_pairing_refuted"], "note": "exact condition for one step, equal weights, and the refutation of the general claim"},
 {"property": "C10", "status": "proved", "theorems": ["C10_dedupe_no_repeats", "C10_dedupe_same_elements", "C10_dedupe_first_occurrence_order", "C10_dedupe_idempotent", "C10_dedupe_identity_on_distinct"], "note": ""},
 {"property": "C11", "status": "proved", "theorems": ["C11_joined_drops_outer_separators", "C11_joined_single_untouched", "C11_joined_empty_separator", "C11_joined_exact", "C11_overlapping_separator_refuted"], "note": "exactness needs outer texts at least as long as the separator; refuted otherwise"},
 {"property": "C12", "status": "proved", "theorems": ["C12_sampled_prompts_are_squashed", "C12_squash_keeps_words", "C12_words_exist", "C12_squash_normal_form", "C12_normal_form_shape", "C12_squash_idempotent", "C12_squash_fixes_normal_forms"], "note": ""},
 {"property": "C13", "status": "proved", "theorems": ["C13_wrap_cuts_at_first_marker", "C13_cut_is_unique"], "note": ""},
 {"property": "C14", "status": "proved", "theorems": ["C14_every_prompt_is_allowed"], "note": ""},
 {"property": "C15", "status": "proved", "theorems": ["C15_enumerates_in_order", "C15_simple_templates_are_enumerated", "C15_sequence_is_product"], "note": ""},
 {"property": "C16", "status": "proved", "theorems": ["C16_single_choice_has_no_repeats", "C16_selections_are_not_repeated", "C16_multi_choice_texts_are_distinct_refuted", "C16_squashed_texts_are_distinct_refuted"], "note": ""},
 {"property": "C17", "status": "proved", "theorems": ["C17_combinatorial_runs_use_no_randomness"], "note": ""},
 {"property": "C18", "status": "proved", "theorems": ["C18_limit_only_truncates", "C18_at_most_the_requested_number", "C18_smaller_request_is_a_prefix", "C18_fuel_is_immaterial"], "note": ""},
 {"property": "C19", "status": "proved", "theorems": ["C19_endless_samplers_do_not_stop"], "note": ""},
 {"property": "C20", "status": "proved", "theorems": ["C20_kth_prompt", "C20_single_choice", "C20_variants_stay_in_step", "C20_no_selection_never_answers", "C20_equal_options_have_no_pair"], "note": ""},
 {"property": "C21", "status": "proved", "theorems": ["C21_method_resolution", "C21_finite_mark_ignored_in_endless_context", "C21_own_mark_decides", "C21_nothing_finite_inside_endless"], "note": ""},
 {"property": "C22", "status": "proved", "theorems": ["C22_only_finite_parts_multiply"], "note": ""},
 {"property": "C23", "status": "proved", "theorems": ["C23_immediate_variable_has_one_value"], "note": ""},
 {"property": "C24", "status": "proved", "theorems": ["C24_assignments_govern_the_whole_sequence", "C24_unassigned_names_keep_their_meaning", "C24_preserving_assignment_keeps_defined_names", "C24_last_lazy_assignment_wins"], "note": ""},
 {"property": "C25", "status": "proved", "theorems": ["C25_undefined_variable_is_a_key_error", "C25_no_value_no_default_no_fallback", "C25_defined_variable_is_sampled", "C25_empty_value_counts_as_undefined_refuted"], "note": ""},
 {"property": "C26", "status": "proved", "theorems": ["C26_resolving_terminates", "C26_recursive_reference_raises"], "note": ""},
 {"property": "C27", "status": "proved", "theorems": ["C27_missing_wildcard_falls_back", "C27_combinatorial_never_stops"], "note": ""},
 {"property": "C28", "status": "proved", "theorems": ["C28_lookups_stay_inside", "C28_get_file", "C28_get_file_rejects", "C28_clean_result", "C28_cleaned_name_is_safe", "C28_safe_name_unchanged", "C28_clean_outcomes", "C28_cleaning_idempotent_refuted"], "note": ""},
 {"property": "C29", "status": "proved", "theorems": ["C29_wrapped", "C29_recognised", "C29_recognised_iff", "C29_unchanged_when_wrapped", "C29_idempotent", "C29_only_missing_wraps", "C29_clean_inverts", "C29_clean_inverts_always_refuted"], "note": ""},
 {"property": "C30", "status": "proved", "theorems": ["C30_values", "C30_nothing_else_nothing_missing", "C30_multiplicities", "C30_shuffle_is_a_permutation"], "note": ""},
 {"property": "C31", "status": "proved", "theorems": ["C31_cache_transparent", "C31_transparent_after_clear", "C31_same_values_with_shuffling", "C31_transparent_after_shuffling_refuted", "C31_transparent_after_write_refuted"], "note": ""},
 {"property": "C32", "status": "proved", "theorems": ["C32_cache_bounded"], "note": ""},
 {"property": "C33", "status": "proved", "theorems": ["C33_walk_lists_the_mapping", "C33_full_names", "C33_names_distinct", "C33_any_names_refuted", "C33_the_tree_maps_the_same", "C33_made_anew_refuted"], "note": ""},
 {"property": "C34", "status": "proved", "theorems": ["C34_plain_lookup", "C34_wrapped_fallback_refuted", "C34_matcher", "C34_plain_pattern", "C34_star", "C34_fallback_pattern"], "note": ""},
 {"property": "C35", "status": "proved", "theorems": ["C35_items_repeat_by_integer_weight", "C35_listing_is_unique", "C35_light_items_never_occur"], "note": ""},
 {"property": "C36", "status": "proved", "theorems": ["C36_random_values_are_items"], "note": ""},
 {"property": "C37", "status": "proved", "theorems": ["C37_values_of_text", "C37_reads_see_the_last_write", "C37_read_text"], "note": ""},
 {"property": "C38", "status": "proved", "theorems": ["C38_collections", "C38_entries", "C38_parts_are_independent", "C38_list_file", "C38_registered", "C38_dotted_directory_refuted"], "note": ""},
 {"property": "C39", "status": "proved", "theorems": ["C39_last_definition_counts", "C39_every_definition_has_its_name", "C39_defined_once", "C39_prefix", "C39_empty_prefix"], "note": ""},
 {"property": "C40", "status": "proved", "theorems": ["C40_batches_are_repeated_calls", "C40_an_exception_stops_the_batches"], "note": ""},
 {"property": "C41", "status": "proved", "theorems": ["C41_the_seed_determines_the_prompt", "C41_refuted_for_weighted_wildcards", "C41_refuted_for_cyclical_variants", "C41_refuted_for_immediate_assignments"], "note": "proved for templates that keep nothing between prompts; refuted for weighted wildcards, cyclical variants and immediate assignments"},
 {"property": "C42", "status": "proved", "theorems": ["C42_one_seed_per_prompt_in_order", "C42_a_single_seed_is_used_for_all", "C42_an_integer_is_one_seed", "C42_other_counts_are_rejected", "C42_zero_and_the_empty_list_are_no_seed"], "note": ""},
 {"property": "C43", "status": "proved", "theorems": ["C43_jinja_collects_blocks_or_texts"], "note": ""},
 {"property": "C44", "status": "proved", "theorems": ["C44_blocked_prompts_are_regenerated_in_place", "C44_one_prompt_per_prompt"], "note": ""},
 {"property": "C45", "status": "proved", "theorems": ["C45_the_prompt_is_kept"], "note": ""},
 {"property": "C46", "status": "proved", "theorems": ["C46_existing_text_is_marked", "C46_chunks_occur", "C46_refuted_for_fine_bounds"], "note": "weight within the bounds when they are whole hundredths; refuted otherwise because of rounding"},
 {"property": "C47", "status": "proved", "theorems": ["C47_shortcut_agrees", "C47_letters_as_wrap_refuted"], "note": "needs a wildcard wrap that is not all letters; refuted otherwise"},
 {"property": "C48", "status": "proved", "theorems": ["C48_lone_wildcard_is_its_values"], "note": ""},
 {"property": "C49", "status": "proved", "theorems": ["C49_scan", "C49_text_collections_are_visible_files", "C49_text_files_found", "C49_last_file_counts"], "note": ""},
 {"property": "C50", "status": "proved", "theorems": ["C50_no_braces_are_added"], "note": ""},
 {"property": "C51", "status": "proved", "theorems": ["C51_permutations_lists_every_selection", "C51_negative_sizes_are_rejected"], "note": ""},
 {"property": "C52", "status": "proved", "theorems": ["C52_feeling_lucky"], "note": ""},
 {"property": "C53", "status": "proved", "theorems": ["C53_choice_returns_an_item", "C53_choice_of_nothing_fails", "C53_weighted_choice_avoids_zero", "C53_weighted_choice_succeeds", "C53_weighted_choice_fails_without_weight", "C53_total_is_positive"], "note": ""},
 {"property": "C54", "status": "proved", "theorems": ["C54_random_without_seeds", "C54_random_with_seeds", "C54_combinatorial", "C54_dummy"], "note": ""},
 {"property": "C55", "status": "proved", "theorems": ["C55_endless_templates_never_fail", "C55_every_request_is_served", "C55_too_few_options_hang", "C55_refuted_for_negative_bounds"], "note": "also: cyclical variants with too few different options hang, negative maximum refuted"},
 {"property": "C56", "status": "proved", "theorems": ["C56_drawable_prompts_are_drawn", "C56_fair_templates_reach_every_allowed_prompt"], "note": "draws are those of a generator replaying a list; weights must be at least 2^-47 of the total"},
 {"property": "C57", "status": "proved", "theorems": ["C57_parsed_commands_are_well_formed"], "note": ""},
 {"property": "C58", "status": "proved", "theorems": ["C58_everyday_templates_are_served"], "note": "cyclical wraps, repeated options of cyclical variants, undefined variables and zero weights in variants are outside the condition"},
 {"property": "C59", "status": "proved", "theorems": ["C59_plain_text_is_its_own_prompt", "C59_plain_text_is_listed_once"], "note": "with the parser as the environment's parser"},
 {"property": "C60", "status": "proved", "theorems": ["C60_combinatorial_generator_lists_all", "C60_one_choice_templates_list_their_choices"], "note": ""},
 {"property": "C61", "status": "proved", "theorems": ["C61_answers_are_fixed"], "note": "shuffling off"},
 {"property": "C62", "status": "proved", "theorems": ["C62_file_wildcard_combinatorial"], "note": "folders without structured files; names without template syntax and glob characters"},
 {"property": "C63", "status": "proved", "theorems": ["C63_file_wildcard_random", "C63_every_value_can_be_drawn"], "note": "folders without structured files; names without template syntax and glob characters"},
 {"property": "C64", "status": "proved", "theorems": ["C64_file_wildcard_cyclical"], "note": "folders without structured files; names without template syntax and glob characters"},
 {"property": "C65", "status": "proved", "theorems": ["C65_ieee_rounds_to_nearest", "C65_floats_are_kept", "C65_rounding_keeps_order", "C65_relative_error", "C65_draw_is_the_stretch_hit", "C65_absorbed_weight_is_never_drawn", "C65_every_positive_weight_drawn_refuted", "C65_order_free_sum_refuted"], "note": "exponents unbounded"},
 {"property": "C66", "status": "proved", "theorems": ["C66_endless_parts_after_assignments", "C66_endless_parts_advance_once_per_prompt"], "note": ""},
 {"property": "C67", "status": "proved", "theorems": ["C67_draws_follow_the_cuts", "C67_true_shares", "C67_exact_shares", "C67_each_options_share", "C67_random_choices_follow_the_cuts"], "note": ""},
 {"property": "C68", "status": "proved", "theorems": ["C68_own_source", "C68_shared_source", "C68_same_seed_same_prompts", "C68_unlinked_seed_is_ignored", "C68_seeds_forget_the_past", "C68_unlinked_generators_are_independent_refuted"], "note": ""},
 {"property": "C69", "status": "proved", "theorems": ["C69_wildcard_lists_the_file", "C69_all_combinations_lists_all", "C69_random_sample_is_allowed", "C69_random_sample_is_the_generators", "C69_random_sample_answers", "C69_random_sample_of_nothing"], "note": ""},
 {"property": "C70", "status": "proved", "theorems": ["C70_write_rewrites_one_file", "C70_other_files_are_untouched", "C70_new_questions_see_the_writes", "C70_one_folder", "C70_written_values_are_found", "C70_two_names_refuted"], "note": ""},
 {"property": "C71", "status": "proved", "theorems": ["C71_new_manager", "C71_two_roots_are_refused", "C71_no_roots_no_values", "C71_folder"], "note": ""},
 {"property": "C72", "status": "proved", "theorems": ["C72_uses_the_pipeline_of_the_first_call", "C72_nothing_after_a_failed_load", "C72_uses_the_model_asked_for", "C72_one_load_for_each_change", "C72_model_name", "C72_a_made_generator_works_refuted", "C72_device_asked_for_refuted", "C72_reported_name_refuted"], "note": ""},
 {"property": "C73", "status": "proved", "theorems": ["C73_same_draws_same_order", "C73_each_order_in_one_way", "C73_series_of_draws", "C73_values_are_not_looked_at", "C73_lookups_give_every_order"], "note": ""},
 {"property": "C74", "status": "proved", "theorems": ["C74_earlier_parses_do_not_matter"], "note": ""},
 {"property": "C75", "status": "proved", "theorems": ["C75_variants_as_written", "C75_default_weights", "C75_variant_fields", "C75_literals_added", "C75_only_literals_are_added", "C75_sequences_of_texts_and_commands", "C75_cross", "C75_values_added"], "note": ""},
 {"property": "C76", "status": "proved", "theorems": ["C76_cleaned_up_as_the_patterns_say", "C76_only_the_added_text", "C76_other_texts", "C76_pairs_of_parentheses_refuted", "C76_every_phrase_gets_its_weight_refuted", "C76_bangs_at_the_end_refuted"], "note": ""},
 {"property": "C77", "status": "proved", "theorems": ["C77_the_first_prompt_is_rolled", "C77_rolled_prompts_are_given", "C77_the_source_decides", "C77_every_prompt_is_rolled"], "note": ""},
 {"property": "C78", "status": "proved", "theorems": ["C78_chunker_gives_the_phrases", "C78_prompts_without_phrases_stay", "C78_phrases_are_bare"], "note": ""},
 {"property": "C79", "status": "proved", "theorems": ["C79_ended_runs_are_exhaustive", "C79_runs_agree", "C79_simple_templates"], "note": ""},
 {"property": "C80", "status": "proved", "theorems": ["C80_other_braces_mean_the_same", "C80_no_values_with_other_braces", "C80_no_wraps_with_other_braces", "C80_bounded_choices_mean_the_same_refuted"], "note": ""},
 {"property": "C81", "status": "proved", "theorems": ["C81_every_writable_command_has_a_text"], "note": ""},
 {"property": "C82", "status": "proved", "theorems": ["C82_prompts_of_flat_templates", "C82_prompts_of_a_variant"], "note": ""},
 {"property": "C83", "status": "proved", "theorems": ["C83_pairs_that_meet", "C83_coprime_variants_meet_everywhere", "C83_prompts_come_back"], "note": ""},
 {"property": "C84", "status": "proved", "theorems": ["C84_random_generator", "C84_combinatorial_generator", "C84_sampling"], "note": ""},
 {"property": "C85", "status": "proved", "theorems": ["C85_lower_bound_left_out", "C85_one_number", "C85_bounds_in_either_order", "C85_upper_bound_left_out", "C85_guide_on_the_upper_bound_refuted", "C85_guide_on_the_separator_refuted", "C85_no_more_than_there_are", "C85_several_texts", "C85_no_repeats", "C85_all_texts", "C85_equal_texts_refuted", "C85_values_without_repeats", "C85_weighted_values_refuted"], "note": ""},
 {"property": "C86", "status": "proved", "theorems": ["C86_value_written_out", "C86_place_of_the_assignment", "C86_marked_value_refuted", "C86_immediate_value_refuted"], "note": ""},
 {"property": "C87", "status": "proved", "theorems": ["C87_passing_is_assigning", "C87_only_literals_refuted", "C87_other_uses_refuted", "C87_lone_in_braces_refuted"], "note": ""},
 {"property": "C88", "status": "proved", "theorems": ["C88_white_space_between_parts", "C88_white_space_of_texts", "C88_ignored_by_the_parser_refuted", "C88_guide_example_refuted"], "note": ""},
 {"property": "C89", "status": "proved", "theorems": ["C89_chance_of_a_prompt", "C89_chance_of_a_run", "C89_runs_multiply", "C89_there_are_chances", "C89_shares_follow_the_weights", "C89_equal_weights_equal_chances_refuted"], "note": ""},
 {"property": "C90", "status": "proved", "theorems": ["C90_chance_of_a_prompt", "C90_chance_of_a_run", "C90_chances_add_up", "C90_wildcards_are_even"], "note": ""},
 {"property": "C91", "status": "proved", "theorems": ["C91_safe_templates_have_chances", "C91_chances_are_unique", "C91_likely_prompts_are_allowed", "C91_drawable_prompts_have_a_chance", "C91_exactly_the_allowed_prompts", "C91_refuted_for_faint_options"], "note": ""},
 {"property": "C92", "status": "proved", "theorems": ["C92_weights_are_relative", "C92_random_generator", "C92_all_weights_scaled", "C92_only_chance_weighs", "C92_combinatorial_generator", "C92_any_weights_without_chance", "C92_floats_scale"], "note": ""},
 {"property": "C93", "status": "proved", "theorems": ["C93_every_exception_has_its_cause", "C93_combinatorial_generator", "C93_random_generator", "C93_kinds_of_exceptions", "C93_no_key_error"], "note": ""},
 {"property": "C94", "status": "proved", "theorems": ["C94_alike_templates_have_the_same_list", "C94_alike_templates_give_the_same_prompts", "C94_same_chances_refuted", "C94_several_options_refuted"], "note": ""},
 {"property": "C95", "status": "proved", "theorems": ["C95_akin_templates_allow_the_same_prompts", "C95_akin_commands_allow_the_same_prompts", "C95_akin_commands_produce_the_same_texts", "C95_no_run_gives_another_prompt", "C95_random_prompts_can_be_drawn_from_both", "C95_zero_weights_refuted", "C95_several_options_refuted"], "note": ""},
 {"property": "C96", "status": "proved", "theorems": ["C96_even_templates_have_the_same_chances", "C96_first_prompts_are_as_likely", "C96_runs_are_as_likely", "C96_chances_are_unique", "C96_order_refuted", "C96_repeated_refuted"], "note": ""},
 {"property": "C97", "status": "proved", "theorems": ["C97_the_same_is_rolled", "C97_first_prompts_are_the_same", "C97_runs_are_the_same", "C97_even_templates_refuted", "C97_equal_options_refuted"], "note": ""},
 {"property": "C98", "status": "proved", "theorems": ["C98_answers_are_rolled", "C98_full_answers_are_rolled", "C98_answers_are_determined", "C98_rewritten_templates_are_answered_alike"], "note": ""},
 {"property": "C99", "status": "proved", "theorems": ["C99_requests_may_be_split", "C99_seeded_requests_may_be_split", "C99_one_seed_gives_one_prompt", "C99_cyclical_requests_refuted", "C99_weighted_wildcards_refuted"], "note": ""},
 {"property": "C100", "status": "proved", "theorems": ["C100_fixed_templates_take_no_number", "C100_fixed_requests_repeat_one_prompt", "C100_fixed_requests_agree", "C100_equal_options_take_numbers_refuted"], "note": ""},
 {"property": "C101", "status": "proved", "theorems": ["C101_no_other_prompts", "C101_the_list_can_be_drawn", "C101_several_options_refuted", "C101_optional_texts_refuted"], "note": ""}
]}
