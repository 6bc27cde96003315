{
 "claims": [
  {
   "property": "C01",
   "status": "proved",
   "theorems": [
    "C01_bell_names_are_a_bijection",
    "C01_bell_names_are_in_ringing_order"
   ],
   "note": ""
  },
  {
   "property": "C02",
   "status": "proved",
   "theorems": [
    "C02_bell_numbers_and_tenor",
    "C02_display_names_are_unambiguous",
    "C02_bell_arithmetic"
   ],
   "note": ""
  },
  {
   "property": "C03",
   "status": "proved",
   "theorems": [
    "C03_stages_are_never_zero",
    "C03_bells_of_a_stage",
    "C03_stage_names_round_trip",
    "C03_stage_names"
   ],
   "note": ""
  },
  {
   "property": "C04",
   "status": "proved",
   "theorems": [
    "C04_from_vec_accepts_exactly_permutations"
   ],
   "note": ""
  },
  {
   "property": "C05",
   "status": "proved",
   "theorems": [
    "C05_row_errors_are_truthful"
   ],
   "note": ""
  },
  {
   "property": "C06",
   "status": "proved",
   "theorems": [
    "C06_parse_of_display",
    "C06_parse_of_display_large_refuted",
    "C06_parse_reads_the_names"
   ],
   "note": "The round trip holds up to 33 bells; beyond that it fails for every row (C06_parse_of_display_large_refuted)."
  },
  {
   "property": "C07",
   "status": "proved",
   "theorems": [
    "C07_with_stage_adds_cover_bells",
    "C07_parse_with_stage_reads_the_bell_names"
   ],
   "note": ""
  },
  {
   "property": "C08",
   "status": "proved",
   "theorems": [
    "C08_with_stage_never_panics_and_errors_are_truthful"
   ],
   "note": ""
  },
  {
   "property": "C09",
   "status": "proved",
   "theorems": [
    "C09_standard_rows",
    "C09_rounds_tests"
   ],
   "note": ""
  },
  {
   "property": "C10",
   "status": "proved",
   "theorems": [
    "C10_multiplication_is_composition"
   ],
   "note": ""
  },
  {
   "property": "C11",
   "status": "proved",
   "theorems": [
    "C11_rows_form_a_group"
   ],
   "note": ""
  },
  {
   "property": "C12",
   "status": "proved",
   "theorems": [
    "C12_in_place_operations"
   ],
   "note": ""
  },
  {
   "property": "C13",
   "status": "proved",
   "theorems": [
    "C13_row_equations"
   ],
   "note": ""
  },
  {
   "property": "C14",
   "status": "proved",
   "theorems": [
    "C14_powers",
    "C14_accumulator_steps",
    "C14_accumulator_histories",
    "C14_accumulator_any_history"
   ],
   "note": "Here the exponent of pow_i is an unbounded integer; C79 says what the smallest isize does."
  },
  {
   "property": "C15",
   "status": "proved",
   "theorems": [
    "C15_parities_of_numbers",
    "C15_documentation_of_from_is_odd_refuted",
    "C15_parity_counts_swaps",
    "C15_parity_of_products"
   ],
   "note": "The documentation of from_is_odd says the opposite of what it does and of its name (C15_documentation_of_from_is_odd_refuted)."
  },
  {
   "property": "C16",
   "status": "proved",
   "theorems": [
    "C16_effective_stage"
   ],
   "note": ""
  },
  {
   "property": "C17",
   "status": "proved",
   "theorems": [
    "C17_closure_lists_the_powers",
    "C17_closure_from_rounds_is_a_rotation"
   ],
   "note": ""
  },
  {
   "property": "C18",
   "status": "proved",
   "theorems": [
    "C18_cartesian_product",
    "C18_cartesian_product_errors",
    "C18_cartesian_product_error_stages"
   ],
   "note": ""
  },
  {
   "property": "C19",
   "status": "proved",
   "theorems": [
    "C19_least_group",
    "C19_least_group_errors",
    "C19_least_group_of_nothing_refuted"
   ],
   "note": "For the empty list, which the property excludes, the result is empty and so not a group (C19_least_group_of_nothing_refuted)."
  },
  {
   "property": "C20",
   "status": "proved",
   "theorems": [
    "C20_group_test",
    "C20_group_test_error_stages"
   ],
   "note": ""
  },
  {
   "property": "C21",
   "status": "partial",
   "theorems": [
    "C21_fast_hash_has_no_collisions",
    "C21_fast_hash_is_a_number_in_base_stage",
    "C21_documented_stages_are_covered",
    "C21_fast_hash_overflow_checked",
    "C21_sixteen_bells_overflow_refuted"
   ],
   "note": "Collision freedom and absence of overflow are proved for stage^stage <= 2^w except the last claim: on 16 bells with 64 bits the final product overflows (C21_sixteen_bells_overflow_refuted)."
  },
  {
   "property": "C22",
   "status": "proved",
   "theorems": [
    "C22_place_of_and_fixed_bells",
    "C22_swap",
    "C22_extend_to_stage"
   ],
   "note": ""
  },
  {
   "property": "C23",
   "status": "proved",
   "theorems": [
    "C23_buffer_of_one_row",
    "C23_same_stage_vec_is_a_list_of_rows",
    "C23_histories_from_any_buffer",
    "C23_index_panics_out_of_range"
   ],
   "note": ""
  },
  {
   "property": "C24",
   "status": "proved",
   "theorems": [
    "C24_failed_operations_change_nothing"
   ],
   "note": ""
  },
  {
   "property": "C25",
   "status": "proved",
   "theorems": [
    "C25_iterator_is_a_deque"
   ],
   "note": ""
  },
  {
   "property": "C26",
   "status": "proved",
   "theorems": [
    "C26_block_paths",
    "C26_paths"
   ],
   "note": ""
  },
  {
   "property": "C27",
   "status": "proved",
   "theorems": [
    "C27_split"
   ],
   "note": ""
  },
  {
   "property": "C28",
   "status": "partial",
   "theorems": [
    "C28_extend_range_transposed_partial",
    "C28_extend_transposed_from_within",
    "C28_pre_multiplied",
    "C28_source_of_another_stage_refuted",
    "C28_from_within_beyond_the_end_refuted",
    "C28_from_within_every_range",
    "C28_every_source_of_another_stage_refuted"
   ],
   "note": "The code does not check the stage of the source buffer: for every source of another stage it panics or leaves a buffer which is not a list of valid rows (C28_every_source_of_another_stage_refuted), and extend_transposed_from_within does not check the end of its range (C28_from_within_every_range gives the exact effect). Proved whenever the source has the stage of the buffer."
  },
  {
   "property": "C29",
   "status": "partial",
   "theorems": [
    "C29_block_parse_rows",
    "C29_block_parse_errors",
    "C29_block_parse_empty_string_panics_refuted",
    "C29_parse_rows",
    "C29_parse_first_bad_line",
    "C29_no_panic_partial",
    "C29_empty_string_panics_refuted"
   ],
   "note": "Proved for every string but the empty one, for which parsing panics (the _refuted theorems, for SameStageVec and AnnotBlock)."
  },
  {
   "property": "C30",
   "status": "proved",
   "theorems": [
    "C30_block_is_a_list_of_annotated_rows",
    "C30_histories_from_any_block",
    "C30_panics_exactly_when",
    "C30_getters_agree",
    "C30_constructors",
    "C30_empty_block",
    "C30_map_annots"
   ],
   "note": ""
  },
  {
   "property": "C31",
   "status": "partial",
   "theorems": [
    "C31_extend",
    "C31_extend_incompatible",
    "C31_extend_range_rows_partial",
    "C31_extend_range_full",
    "C31_extend_range_sub_range_refuted",
    "C31_extend_range_panics",
    "C31_extend_range_inverted_refuted",
    "C31_extend_range_incompatible"
   ],
   "note": "extend is proved in full. extend_range appends the right rows but keeps all annotations of the other block for every proper sub-range (C31_extend_range_sub_range_refuted), and for a range inverted by one it drops the left-over row (C31_extend_range_inverted_refuted). C31_extend_range_panics and C31_extend_range_incompatible cover all other ranges and stages."
  },
  {
   "property": "C32",
   "status": "proved",
   "theorems": [
    "C32_extend_from_within",
    "C32_outside_the_block_panics"
   ],
   "note": ""
  },
  {
   "property": "C33",
   "status": "proved",
   "theorems": [
    "C33_split"
   ],
   "note": ""
  },
  {
   "property": "C34",
   "status": "proved",
   "theorems": [
    "C34_repeat_iter_items",
    "C34_repeat_iter_empty_block",
    "C34_repeat_iter_incompatible"
   ],
   "note": ""
  },
  {
   "property": "C35",
   "status": "proved",
   "theorems": [
    "C35_effective_stage"
   ],
   "note": ""
  },
  {
   "property": "C36",
   "status": "proved",
   "theorems": [
    "C36_cross",
    "C36_parse_places",
    "C36_parse_cross",
    "C36_places_ascend"
   ],
   "note": ""
  },
  {
   "property": "C37",
   "status": "proved",
   "theorems": [
    "C37_errors_are_true",
    "C37_mistakes_are_reported"
   ],
   "note": ""
  },
  {
   "property": "C38",
   "status": "proved",
   "theorems": [
    "C38_permute",
    "C38_permute_wrong_stage",
    "C38_parsed_can_be_applied"
   ],
   "note": ""
  },
  {
   "property": "C39",
   "status": "proved",
   "theorems": [
    "C39_transposition"
   ],
   "note": ""
  },
  {
   "property": "C40",
   "status": "proved",
   "theorems": [
    "C40_place_notation_between"
   ],
   "note": ""
  },
  {
   "property": "C41",
   "status": "proved",
   "theorems": [
    "C41_display_round_trip"
   ],
   "note": ""
  },
  {
   "property": "C42",
   "status": "proved",
   "theorems": [
    "C42_queries"
   ],
   "note": ""
  },
  {
   "property": "C43",
   "status": "proved",
   "theorems": [
    "C43_parse_block",
    "C43_parsed_changes_are_legal",
    "C43_mirror"
   ],
   "note": ""
  },
  {
   "property": "C44",
   "status": "partial",
   "theorems": [
    "C44_positions_count_bytes",
    "C44_error_positions_partial",
    "C44_error_positions_single_part_partial",
    "C44_error_positions_refuted"
   ],
   "note": "False as claimed: the offset of a part is added twice and the range of a word ends one byte late (C44_error_positions_refuted). The partial theorems say exactly which positions are reported, and that they start right when the text has no comma."
  },
  {
   "property": "C45",
   "status": "proved",
   "theorems": [
    "C45_length_and_stage",
    "C45_from_vec",
    "C45_to_rows",
    "C45_to_rows_wrong_stage",
    "C45_to_block"
   ],
   "note": ""
  },
  {
   "property": "C46",
   "status": "proved",
   "theorems": [
    "C46_matches",
    "C46_mask_times_row_places",
    "C46_mask_times_row",
    "C46_row_times_mask",
    "C46_products_well_formed",
    "C46_products_panic"
   ],
   "note": "row * mask needs the mask to name only bells of the stage; otherwise it panics (C46_products_panic)."
  },
  {
   "property": "C47",
   "status": "proved",
   "theorems": [
    "C47_compatible",
    "C47_combine",
    "C47_combine_places"
   ],
   "note": ""
  },
  {
   "property": "C48",
   "status": "partial",
   "theorems": [
    "C48_subset_partial",
    "C48_subset_refuted",
    "C48_what_is_answered"
   ],
   "note": "Soundness is proved in full; the converse is proved unless exactly one place of the first mask is open and the second specifies it, where it is false for every such mask (C48_subset_refuted)."
  },
  {
   "property": "C49",
   "status": "partial",
   "theorems": [
    "C49_as_row_partial",
    "C49_as_row_one_open_refuted",
    "C49_as_row_invalid_refuted",
    "C49_what_is_answered"
   ],
   "note": "Proved for well-formed masks except those with exactly one open place, for which it is false (C49_as_row_one_open_refuted); parsed masks may be ill formed and then as_row returns an invalid row (C49_as_row_invalid_refuted)."
  },
  {
   "property": "C50",
   "status": "proved",
   "theorems": [
    "C50_set_bell",
    "C50_set_bell_beyond_the_end",
    "C50_fix",
    "C50_fix_bells",
    "C50_empty_and_full",
    "C50_queries"
   ],
   "note": ""
  },
  {
   "property": "C51",
   "status": "proved",
   "theorems": [
    "C51_mask_to_regex"
   ],
   "note": ""
  },
  {
   "property": "C52",
   "status": "proved",
   "theorems": [
    "C52_normalise",
    "C52_idempotent"
   ],
   "note": ""
  },
  {
   "property": "C53",
   "status": "proved",
   "theorems": [
    "C53_matches",
    "C53_parsed",
    "C53_text_meaning"
   ],
   "note": ""
  },
  {
   "property": "C54",
   "status": "proved",
   "theorems": [
    "C54_match_pattern",
    "C54_match_pattern_some"
   ],
   "note": ""
  },
  {
   "property": "C55",
   "status": "partial",
   "theorems": [
    "C55_runs_front",
    "C55_runs_back",
    "C55_all_runs_partial",
    "C55_all_runs_zero_refuted",
    "C55_runs"
   ],
   "note": "all_runs of length zero makes regexes whose matching always panics (C55_all_runs_zero_refuted); everything else is proved."
  },
  {
   "property": "C56",
   "status": "partial",
   "theorems": [
    "C56_num_matching_rows_partial",
    "C56_wildcards_refuted",
    "C56_other_refuted",
    "C56_how_many_rows_match",
    "C56_one_glob_right_exactly_when_partial",
    "C56_what_is_answered"
   ],
   "note": "The answer is the number of matching rows for regexes with one glob and at most one wildcard and for full-length ones with at most one wildcard (C56_num_matching_rows_partial). For every normalised regex C56_how_many_rows_match gives the true number and C56_what_is_answered what the code answers; with one glob they agree exactly when there is at most one wildcard or one bell is left for the glob. The claim fails beyond that (C56_wildcards_refuted, C56_other_refuted)."
  },
  {
   "property": "C57",
   "status": "proved",
   "theorems": [
    "C57_choice",
    "C57_binomial"
   ],
   "note": ""
  },
  {
   "property": "C58",
   "status": "partial",
   "theorems": [
    "C58_run_len_partial",
    "C58_run_len_empty_refuted"
   ],
   "note": "Proved for non-empty sequences; the empty one gives 1 (C58_run_len_empty_refuted)."
  },
  {
   "property": "C59",
   "status": "proved",
   "theorems": [
    "C59_plain_course",
    "C59_row_in_plain_course",
    "C59_terminates_iff",
    "C59_plain_course_loops_for_ever_refuted",
    "C59_getters"
   ],
   "note": ""
  },
  {
   "property": "C60",
   "status": "proved",
   "theorems": [
    "C60_labels",
    "C60_out_of_range_panics"
   ],
   "note": ""
  },
  {
   "property": "C61",
   "status": "proved",
   "theorems": [
    "C61_cycles_partition_the_bells",
    "C61_place_bells_are_successive_leads",
    "C61_hunt_bells_are_fixed_by_the_lead_head",
    "C61_panics"
   ],
   "note": ""
  },
  {
   "property": "C62",
   "status": "proved",
   "theorems": [
    "C62_specification_is_unambiguous",
    "C62_classification",
    "C62_panics",
    "C62_hash_order_is_irrelevant",
    "C62_legal_changes_do_not_jump",
    "C62_hybrid_paths_are_asymmetric_refuted"
   ],
   "note": ""
  },
  {
   "property": "C63",
   "status": "proved",
   "theorems": [
    "C63_title",
    "C63_title_exists_iff"
   ],
   "note": ""
  },
  {
   "property": "C64",
   "status": "proved",
   "theorems": [
    "C64_get_by_title",
    "C64_case_does_not_matter",
    "C64_suggestions_variant_agrees",
    "C64_suggestions_are_the_closest",
    "C64_unwrap_parse_err"
   ],
   "note": ""
  },
  {
   "property": "C65",
   "status": "proved",
   "theorems": [
    "C65_round_trip",
    "C65_json_round_trip",
    "C65_to_compact_panics",
    "C65_unpacking"
   ],
   "note": ""
  },
  {
   "property": "C66",
   "status": "partial",
   "theorems": [
    "C66_stage_round_trip",
    "C66_stage_from_bad_input_is_an_error_refuted",
    "C66_stage_from_any_input_partial",
    "C66_bell_round_trip_refuted",
    "C66_bell_from_any_input"
   ],
   "note": "The stage round trip and the behaviour on every input value are proved. Two parts of the English claim are false of the code: deserialising the stage 0 panics (C66_stage_from_bad_input_is_an_error_refuted) and a serialised bell does not come back (C66_bell_round_trip_refuted gives the exact result for every bell). C66_stage_from_any_input_partial covers all other values."
  },
  {
   "property": "C67",
   "status": "proved",
   "theorems": [
    "C67_effective_stage",
    "C67_calls_from_parts",
    "C67_calls"
   ],
   "note": ""
  },
  {
   "property": "C68",
   "status": "partial",
   "theorems": [
    "C68_safe_programs_partial",
    "C68_careful_programs_partial",
    "C68_at_every_point_partial",
    "C68_no_unchecked_access_out_of_bounds_refuted",
    "C68_every_row_is_valid_refuted"
   ],
   "note": "False as claimed: Mask::as_row and SameStageVec::extend(_range)_transposed let safe code build invalid rows and reach an unchecked out-of-bounds read (the _refuted theorems). Proved for every program over the modelled API without these three calls, and for every program which checks their preconditions. A panic ends a program here; programs which catch panics are C77."
  },
  {
   "property": "C69",
   "status": "proved",
   "theorems": [
    "C69_parse",
    "C69_parse_of_display"
   ],
   "note": ""
  },
  {
   "property": "C70",
   "status": "proved",
   "theorems": [
    "C70_bells_of_the_elements",
    "C70_parse_of_display"
   ],
   "note": ""
  },
  {
   "property": "C71",
   "status": "proved",
   "theorems": [
    "C71_from_place_not_string",
    "C71_errors",
    "C71_with_lead_end",
    "C71_lead_end_labels_agree_refuted",
    "C71_with_name"
   ],
   "note": ""
  },
  {
   "property": "C72",
   "status": "proved",
   "theorems": [
    "C72_display_words",
    "C72_display_is_injective"
   ],
   "note": ""
  },
  {
   "property": "C73",
   "status": "proved",
   "theorems": [
    "C73_debug_texts_are_unambiguous",
    "C73_debug_texts_are_not_displayed_ones",
    "C73_texts_are_unambiguous"
   ],
   "note": ""
  },
  {
   "property": "C74",
   "status": "proved",
   "theorems": [
    "C74_messages_identify_errors",
    "C74_messages_of_returned_errors_do_not_panic",
    "C74_messages_of_rows",
    "C74_messages_of_place_notation"
   ],
   "note": ""
  },
  {
   "property": "C75",
   "status": "proved",
   "theorems": [
    "C75_debug_lists_the_rows",
    "C75_debug_texts_are_unambiguous"
   ],
   "note": ""
  },
  {
   "property": "C76",
   "status": "proved",
   "theorems": [
    "C76_order_of_rows",
    "C76_equality_and_hashing"
   ],
   "note": ""
  },
  {
   "property": "C77",
   "status": "partial",
   "theorems": [
    "C77_same_functions",
    "C77_caught_programs_partial",
    "C77_careful_caught_programs_partial",
    "C77_panic_changes_nothing_partial",
    "C77_panic_changes_nothing_without_ranges_partial",
    "C77_extend_range_leaves",
    "C77_extend_from_within_leaves",
    "C77_extend_by_a_panicking_iterator",
    "C77_extend_range_transposed_leaves",
    "C77_panic_changes_nothing_refuted",
    "C77_later_panics_refuted",
    "C77_rows_stay_valid_refuted"
   ],
   "note": "False as claimed: a caught panic of AnnotBlock::extend_range takes off the left-over row, one of extend_from_within adds rows without annotations, and one of extend_(range_)transposed from a larger stage leaves part of a row in the buffer (the _refuted theorems; the _leaves theorems say exactly what is left). Proved: rows stay valid in every program which catches panics and avoids (or guards) the three calls excluded in C68, and a panic changes nothing in programs which avoid the two range calls, or in any program for every other call."
  },
  {
   "property": "C78",
   "status": "partial",
   "theorems": [
    "C78_checked_builds_partial",
    "C78_checked_builds_rows_partial",
    "C78_small_row_numbers_partial",
    "C78_exact_integers_refuted"
   ],
   "note": "False as claimed of builds without overflow checks: a row number whose product with the stage wraps makes get return bells of two rows (C78_exact_integers_refuted). Proved: with overflow checks every program does what it would do with unbounded integers or panics; in every build, programs whose values fit into memory and whose row numbers are below 2^w/stage - 2 do exactly what they would do with unbounded integers."
  },
  {
   "property": "C79",
   "status": "proved",
   "theorems": [
    "C79_get_checked",
    "C79_get_unchecked",
    "C79_get_unchecked_powers_of_two",
    "C79_get_unchecked_other_stages_refuted",
    "C79_get_largest",
    "C79_split",
    "C79_range_to_largest",
    "C79_block_range_to_largest",
    "C79_bell_arithmetic",
    "C79_pow_i",
    "C79_run_len",
    "C79_num_matching_rows",
    "C79_num_matching_rows_unchecked_refuted"
   ],
   "note": "The exact behaviour is proved for every number. The _refuted theorems show that the wrapped answers are wrong as rows or as counts."
  },
  {
   "property": "C80",
   "status": "proved",
   "theorems": [
    "C80_rows_give_the_changes_back",
    "C80_changes_give_the_rows_back",
    "C80_different_blocks_ring_different_rows",
    "C80_other_starts",
    "C80_one_block_after_another",
    "C80_ringing_backwards"
   ],
   "note": ""
  },
  {
   "property": "C81",
   "status": "proved",
   "theorems": [
    "C81_changes_written_out",
    "C81_changes_with_dots",
    "C81_texts_combine",
    "C81_symmetrical_blocks"
   ],
   "note": ""
  },
  {
   "property": "C82",
   "status": "proved",
   "theorems": [
    "C82_extending_is_associative",
    "C82_empty_blocks",
    "C82_multiplying_and_extending",
    "C82_splitting_undoes_extending"
   ],
   "note": ""
  },
  {
   "property": "C83",
   "status": "proved",
   "theorems": [
    "C83_closure_is_the_least_group",
    "C83_closures_and_least_groups_are_groups",
    "C83_groups_are_their_own_least_groups",
    "C83_orders",
    "C83_sizes_divide"
   ],
   "note": ""
  },
  {
   "property": "C84",
   "status": "proved",
   "theorems": [
    "C84_parities_of_rounds_inverses_and_powers",
    "C84_parities_of_changes",
    "C84_parities_along_a_block"
   ],
   "note": ""
  },
  {
   "property": "C85",
   "status": "proved",
   "theorems": [
    "C85_plain_course_of_a_text",
    "C85_ringing_for_ever"
   ],
   "note": ""
  },
  {
   "property": "C86",
   "status": "proved",
   "theorems": [
    "C86_text_round_trip",
    "C86_reading_any_text",
    "C86_values_round_trip"
   ],
   "note": ""
  },
  {
   "property": "C87",
   "status": "proved",
   "theorems": [
    "C87_good_cache_is_used",
    "C87_bytes_of_texts",
    "C87_fetch_saves",
    "C87_histories"
   ],
   "note": ""
  },
  {
   "property": "C88",
   "status": "partial",
   "theorems": [
    "C88_bad_cache_refuted",
    "C88_bad_cache_partial"
   ],
   "note": "False for a file which is JSON with the fields of a library but cannot be unpacked (unknown class number, no bells, ...): then every call panics and the file is never replaced (C88_bad_cache_refuted). Proved for all other contents which cannot be loaded."
  },
  {
   "property": "C89",
   "status": "partial",
   "theorems": [
    "C89_different_texts_refuted",
    "C89_overlapping_calls_partial"
   ],
   "note": "False when overlapping calls are served different texts: the file can become a mixture, from which a later call reads a library nobody served (C89_different_texts_refuted). Proved when all requests that succeed get the same text."
  },
  {
   "property": "C90",
   "status": "proved",
   "theorems": [
    "C90_reader_follows_grammar",
    "C90_one_value",
    "C90_writer_follows_grammar",
    "C90_text_of_library"
   ],
   "note": ""
  },
  {
   "property": "C91",
   "status": "partial",
   "theorems": [
    "C91_rows_partial",
    "C91_adapters_partial",
    "C91_searches",
    "C91_forward",
    "C91_size_hint_refuted",
    "C91_size_hints_are_true",
    "C91_skip_from_the_back_refuted",
    "C91_lengths_refuted",
    "C91_skip_of_exact_iterators"
   ],
   "note": "False of size_hint, which is left at its default although len is defined: iter().skip(n).rev() and the len of skip, take and zip panic for every buffer (the _refuted theorems). Proved for next, next_back and len, and for all adapters in the uses which do not ask for size_hint."
  },
  {
   "property": "C92",
   "status": "partial",
   "theorems": [
    "C92_called_or_interrupted",
    "C92_constructors",
    "C92_maps",
    "C92_extend",
    "C92_extend_from_within",
    "C92_interrupted_extend_refuted",
    "C92_interrupted_extend_from_within_refuted",
    "C92_same_functions"
   ],
   "note": "False of a clone which panics inside extend or extend_from_within: the rows are added before the annotations are cloned, so the block is left with more rows than annotations (C92_interrupted_extend_refuted, C92_interrupted_extend_from_within_refuted). Everything else is proved."
  },
  {
   "property": "C93",
   "status": "partial",
   "theorems": [
    "C93_calls_end_partial",
    "C93_programs_end_partial",
    "C93_methods_have_sound_leads",
    "C93_enough_is_enough",
    "C93_repeated_bells_refuted",
    "C93_method_new_refuted",
    "C93_extend_range_refuted"
   ],
   "note": "False of rows with a repeated bell made by Mask::as_row (parity and the closures run for ever, C93_repeated_bells_refuted), of methods made by Method::new from a block that does not start at rounds (C93_method_new_refuted), and of methods made by with_name after extend_range (C93_extend_range_refuted). Proved for every call after every careful program when plain_course gets a sound lead, and for whole programs which do not use both plain_course and Method::new or extend_range."
  },
  {
   "property": "C94",
   "status": "proved",
   "theorems": [
    "C94_contracts_suffice",
    "C94_same_as_checked",
    "C94_get_bell",
    "C94_rows_of_bells",
    "C94_sorted_slice",
    "C94_regexes"
   ],
   "note": ""
  },
  {
   "property": "C95",
   "status": "partial",
   "theorems": [
    "C95_reading_a_document",
    "C95_methods_are_found_refuted",
    "C95_methods_are_found_partial"
   ],
   "note": "The file does not compile at this commit; the model makes the two repairs which the types suggest (stage made by Stage::new, field title filled with the title). Reading is proved in full. That methods can be found is false: titles are stored without lower-casing them, so no title with a capital letter is found (C95_methods_are_found_refuted); proved for the library after it was written to JSON and read back."
  },
  {
   "property": "C96",
   "status": "partial",
   "theorems": [
    "C96_no_read_out_of_bounds_partial",
    "C96_tame_programs_partial",
    "C96_checked_builds_partial",
    "C96_programs_which_fit_partial",
    "C96_release_builds_refuted",
    "C96_every_build_refuted"
   ],
   "note": "False: inv_into_buf shortens a longer buffer and overwrites only the places of the bells which the row has, so for a row with a repeated bell it leaves a bell beyond the stage, and a later pre_multiply reads out of bounds. Such a row comes from a wrapped row number in a build without overflow checks (C96_release_builds_refuted), or in every build from extend_transposed with a buffer of another stage (C96_every_build_refuted). Proved for all programs without inv_into_buf and Mask::as_row, and for those which check their arguments. For careful programs whose values and row numbers fit, every build does exactly what the model with unbounded integers does (C96_programs_which_fit_partial)."
  },
  {
   "property": "C97",
   "status": "proved",
   "theorems": [
    "C97_subset_is_an_order",
    "C97_combine_is_a_meet_semilattice",
    "C97_combine_and_subset",
    "C97_matches_and_full_rows",
    "C97_products_are_actions",
    "C97_products_with_rows",
    "C97_products_keep_the_order",
    "C97_fix_bells"
   ],
   "note": ""
  },
  {
   "property": "C98",
   "status": "proved",
   "theorems": [
    "C98_equal_regexes",
    "C98_equal_texts",
    "C98_least_pattern",
    "C98_rows_do_not_tell_regexes_apart"
   ],
   "note": ""
  },
  {
   "property": "C99",
   "status": "proved",
   "theorems": [
    "C99_every_bell_comes_home",
    "C99_the_order_is_the_lcm_of_the_cycles",
    "C99_parity_by_cycles",
    "C99_conjugates",
    "C99_plain_course"
   ],
   "note": ""
  },
  {
   "property": "C100",
   "status": "proved",
   "theorems": [
    "C100_leads_put_together",
    "C100_calls_replace_changes",
    "C100_lead_head_of_a_called_lead",
    "C100_repeated_parts_come_round"
   ],
   "note": ""
  },
  {
   "property": "C101",
   "status": "proved",
   "theorems": [
    "C101_class_of_the_circle_of_changes",
    "C101_methods_of_the_circle_of_changes"
   ],
   "note": ""
  },
  {
   "property": "C102",
   "status": "partial",
   "theorems": [
    "C102_class_of_the_dominant_hunt_bells",
    "C102_symmetric_hunters_partial",
    "C102_symmetric_hunters_are_those_not_hybrid",
    "C102_symmetric_hunters_refuted"
   ],
   "note": "False in one direction: a lead whose hunt bells follow a symmetric path with fewer than two places made is a hybrid, and is_symmetric_hunter denies it (C102_symmetric_hunters_refuted). Proved: the other direction for every lead, and the claims about hunt_bell_class, is_plain and is_treble_dodging in full. is_symmetric_hunter holds exactly when there are dominant hunt bells and their paths are not hybrid (C102_symmetric_hunters_are_those_not_hybrid)."
  },
  {
   "property": "C103",
   "status": "proved",
   "theorems": [
    "C103_runs_anywhere",
    "C103_runs_at_the_ends",
    "C103_whole_rows_are_counted_at_both_ends",
    "C103_single_bells_refuted"
   ],
   "note": "Stated for at least two bells. With runs of one bell each pattern is there twice (C103_single_bells_refuted)."
  },
  {
   "property": "C104",
   "status": "proved",
   "theorems": [
    "C104_rows_which_a_mask_matches",
    "C104_rows_which_a_run_pattern_matches",
    "C104_runs_in_the_extent"
   ],
   "note": ""
  },
  {
   "property": "C105",
   "status": "proved",
   "theorems": [
    "C105_leads_with_a_row_in_common",
    "C105_true_touches",
    "C105_true_plain_courses"
   ],
   "note": ""
  },
  {
   "property": "C106",
   "status": "proved",
   "theorems": [
    "C106_parity",
    "C106_closures",
    "C106_least_groups",
    "C106_plain_courses",
    "C106_regex_matching",
    "C106_group_test"
   ],
   "note": ""
  },
  {
   "property": "C107",
   "status": "proved",
   "theorems": [
    "C107_displayed_texts",
    "C107_messages",
    "C107_debug_texts_and_titles",
    "C107_rows_line_up"
   ],
   "note": ""
  },
  {
   "property": "C108",
   "status": "proved",
   "theorems": [
    "C108_same_results",
    "C108_with_capacity",
    "C108_from_any_buffer",
    "C108_from_row_buf_and_split",
    "C108_transposed_copy",
    "C108_written_into_a_buffer",
    "C108_new_rows",
    "C108_accumulator",
    "C108_powers",
    "C108_is_group",
    "C108_repeat_iter",
    "C108_repeat_iter_of_nothing"
   ],
   "note": ""
  },
  {
   "property": "C109",
   "status": "proved",
   "theorems": [
    "C109_programs",
    "C109_group_tests",
    "C109_suggestions",
    "C109_written_libraries",
    "C109_searches",
    "C109_where_the_order_shows"
   ],
   "note": ""
  },
  {
   "property": "C110",
   "status": "proved",
   "theorems": [
    "C110_rows",
    "C110_texts_of_rows",
    "C110_masks",
    "C110_regexes",
    "C110_changes",
    "C110_place_notation",
    "C110_methods"
   ],
   "note": ""
  },
  {
   "property": "C111",
   "status": "proved",
   "theorems": [
    "C111_covers",
    "C111_products",
    "C111_queries",
    "C111_closures",
    "C111_groups",
    "C111_products_of_sets"
   ],
   "note": ""
  },
  {
   "property": "C112",
   "status": "proved",
   "theorems": [
    "C112_calls",
    "C112_programs",
    "C112_after_extend_range"
   ],
   "note": ""
  },
  {
   "property": "C113",
   "status": "proved",
   "theorems": [
    "C113_changes_upside_down",
    "C113_transpositions_upside_down",
    "C113_class_upside_down",
    "C113_methods_upside_down"
   ],
   "note": ""
  },
  {
   "property": "C114",
   "status": "proved",
   "theorems": [
    "C114_plain_courses_round_the_circle",
    "C114_plain_courses_upside_down",
    "C114_length_and_truth"
   ],
   "note": ""
  },
  {
   "property": "C115",
   "status": "proved",
   "theorems": [
    "C115_backwards",
    "C115_texts_backwards",
    "C115_other_bells",
    "C115_counts",
    "C115_runs"
   ],
   "note": ""
  },
  {
   "property": "C116",
   "status": "proved",
   "theorems": [
    "C116_bells",
    "C116_rows",
    "C116_not",
    "C116_accumulated_totals",
    "C116_second_names"
   ],
   "note": ""
  },
  {
   "property": "C117",
   "status": "proved",
   "theorems": [
    "C117_changes",
    "C117_blocks_of_changes",
    "C117_masks",
    "C117_regexes",
    "C117_hashing"
   ],
   "note": ""
  },
  {
   "property": "C118",
   "status": "proved",
   "theorems": [
    "C118_renaming",
    "C118_products",
    "C118_queries",
    "C118_closures",
    "C118_groups",
    "C118_products_of_sets"
   ],
   "note": ""
  },
  {
   "property": "C119",
   "status": "proved",
   "theorems": [
    "C119_changes_with_covers",
    "C119_transpositions_with_covers",
    "C119_leads_with_covers",
    "C119_plain_courses_with_covers"
   ],
   "note": ""
  },
  {
   "property": "C120",
   "status": "proved",
   "theorems": [
    "C120_number_of_changes",
    "C120_rows_one_change_away",
    "C120_both_ways",
    "C120_every_row_is_reached"
   ],
   "note": ""
  },
  {
   "property": "C121",
   "status": "proved",
   "theorems": [
    "C121_groups",
    "C121_extents",
    "C121_even_changes"
   ],
   "note": ""
  },
  {
   "property": "C122",
   "status": "proved",
   "theorems": [
    "C122_joined_texts",
    "C122_anywhere",
    "C122_texts_of_the_same_regex"
   ],
   "note": ""
  },
  {
   "property": "C123",
   "status": "proved",
   "theorems": [
    "C123_one_bell_at_each_place",
    "C123_paths_determine_the_rows",
    "C123_one_place_at_a_time",
    "C123_place_bells"
   ],
   "note": ""
  },
  {
   "property": "C124",
   "status": "proved",
   "theorems": [
    "C124_sections",
    "C124_courses"
   ],
   "note": ""
  },
  {
   "property": "C125",
   "status": "proved",
   "theorems": [
    "C125_with_capacity",
    "C125_with_capacity_unchecked_refuted",
    "C125_runs",
    "C125_room_for_runs"
   ],
   "note": ""
  },
  {
   "property": "C126",
   "status": "proved",
   "theorems": [
    "C126_products",
    "C126_inverses_and_powers",
    "C126_groups",
    "C126_changes"
   ],
   "note": ""
  },
  {
   "property": "C127",
   "status": "proved",
   "theorems": [
    "C127_same_text",
    "C127_same_rows",
    "C127_displayed",
    "C127_texts_of_rows"
   ],
   "note": ""
  },
  {
   "property": "C128",
   "status": "proved",
   "theorems": [
    "C128_exists_exactly_when_no_bell_jumps",
    "C128_does_not_depend_on_the_bells",
    "C128_rows_without_jumps_are_rung"
   ],
   "note": ""
  },
  {
   "property": "C129",
   "status": "proved",
   "theorems": [
    "C129_when_they_are_a_group",
    "C129_otherwise_a_coset"
   ],
   "note": ""
  },
  {
   "property": "C130",
   "status": "proved",
   "theorems": [
    "C130_as_texts_up_to_nine_bells",
    "C130_not_from_ten_bells_on"
   ],
   "note": ""
  },
  {
   "property": "C131",
   "status": "proved",
   "theorems": [
    "C131_changes",
    "C131_plain_course",
    "C131_principle"
   ],
   "note": ""
  },
  {
   "property": "C132",
   "status": "proved",
   "theorems": [
    "C132_changes",
    "C132_plain_course",
    "C132_class"
   ],
   "note": ""
  },
  {
   "property": "C133",
   "status": "proved",
   "theorems": [
    "C133_working_bells",
    "C133_principles_on_a_prime_number_of_bells"
   ],
   "note": ""
  },
  {
   "property": "C134",
   "status": "proved",
   "theorems": [
    "C134_the_same_work",
    "C134_hunt_bells"
   ],
   "note": ""
  },
  {
   "property": "C135",
   "status": "proved",
   "theorems": [
    "C135_plain_paths",
    "C135_plain_methods"
   ],
   "note": ""
  },
  {
   "property": "C136",
   "status": "proved",
   "theorems": [
    "C136_hunt_bells_move_an_even_number_of_times",
    "C136_lead_lengths"
   ],
   "note": ""
  },
  {
   "property": "C137",
   "status": "proved",
   "theorems": [
    "C137_hunt_bells_in_the_same_places",
    "C137_plain_methods",
    "C137_touches"
   ],
   "note": ""
  },
  {
   "property": "C138",
   "status": "proved",
   "theorems": [
    "C138_no_more_rows_than_orders",
    "C138_hunt_bells_in_an_extent",
    "C138_class_of_an_extent"
   ],
   "note": ""
  },
  {
   "property": "C139",
   "status": "proved",
   "theorems": [
    "C139_same_paths",
    "C139_affected_bells",
    "C139_bobs_and_singles",
    "C139_bells_which_no_call_affects"
   ],
   "note": ""
  },
  {
   "property": "C140",
   "status": "proved",
   "theorems": [
    "C140_transposed_rows",
    "C140_joined_blocks",
    "C140_touches",
    "C140_plain_courses",
    "C140_music_of_a_true_touch"
   ],
   "note": ""
  },
  {
   "property": "C141",
   "status": "proved",
   "theorems": [
    "C141_true_touches",
    "C141_bobs",
    "C141_singles"
   ],
   "note": ""
  },
  {
   "property": "C142",
   "status": "proved",
   "theorems": [
    "C142_even_calls",
    "C142_extents_need_singles"
   ],
   "note": ""
  },
  {
   "property": "C143",
   "status": "proved",
   "theorems": [
    "C143_changes",
    "C143_plain_course",
    "C143_class"
   ],
   "note": ""
  },
  {
   "property": "C144",
   "status": "proved",
   "theorems": [
    "C144_fewest_swaps",
    "C144_palindromes_are_quadratic"
   ],
   "note": ""
  },
  {
   "property": "C145",
   "status": "proved",
   "theorems": [
    "C145_changes",
    "C145_plain_course",
    "C145_class"
   ],
   "note": ""
  },
  {
   "property": "C146",
   "status": "proved",
   "theorems": [
    "C146_round_touches",
    "C146_no_extent_of_grandsire_with_bobs_only"
   ],
   "note": ""
  },
  {
   "property": "C147",
   "status": "proved",
   "theorems": [
    "C147_extents_need_singles"
   ],
   "note": ""
  },
  {
   "property": "C148",
   "status": "proved",
   "theorems": [
    "C148_products_with_a_group",
    "C148_extents_in_parts",
    "C148_groups_divide_groups"
   ],
   "note": ""
  },
  {
   "property": "C149",
   "status": "proved",
   "theorems": [
    "C149_plain_courses_are_products",
    "C149_groups_of_lead_heads_are_whole_courses"
   ],
   "note": ""
  },
  {
   "property": "C150",
   "status": "proved",
   "theorems": [
    "C150_as_many_changes_as_bells",
    "C150_backrounds_needs_as_many",
    "C150_at_least_as_many_as_places_to_go"
   ],
   "note": ""
  },
  {
   "property": "C151",
   "status": "proved",
   "theorems": [
    "C151_extents_on_every_stage"
   ],
   "note": ""
  },
  {
   "property": "C152",
   "status": "proved",
   "theorems": [
    "C152_double_changes",
    "C152_four_bells_are_too_few"
   ],
   "note": ""
  },
  {
   "property": "C153",
   "status": "proved",
   "theorems": [
    "C153_places_in_the_course",
    "C153_all_bells_working_together",
    "C153_one_hunt_bell"
   ],
   "note": ""
  },
  {
   "property": "C154",
   "status": "proved",
   "theorems": [
    "C154_calls_come_in_sets"
   ],
   "note": ""
  },
  {
   "property": "C155",
   "status": "proved",
   "theorems": [
    "C155_leads_which_keep_to_a_mask"
   ],
   "note": ""
  },
  {
   "property": "C156",
   "status": "proved",
   "theorems": [
    "C156_bells_in_places",
    "C156_rows_which_match_a_mask"
   ],
   "note": ""
  },
  {
   "property": "C157",
   "status": "proved",
   "theorems": [
    "C157_blocks_joined_by_a_set_of_calls"
   ],
   "note": ""
  },
  {
   "property": "C158",
   "status": "proved",
   "theorems": [
    "C158_round_blocks_can_be_started_anywhere",
    "C158_round_blocks_can_be_inserted"
   ],
   "note": ""
  },
  {
   "property": "C159",
   "status": "proved",
   "theorems": [
    "C159_without_a_set_of_calls"
   ],
   "note": ""
  }
 ]
}