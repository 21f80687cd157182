{
 "claims": [
  {
   "property": "C01",
   "status": "proved",
   "theorems": [
    "C01_factorial_nonneg",
    "C01_factorial_negative",
    "C01_factorial_overflow"
   ],
   "note": ""
  },
  {
   "property": "C02",
   "status": "proved",
   "theorems": [
    "C02_fibonacci_fast",
    "C02_fibonacci_fold",
    "C02_fibonacci_i",
    "C02_fibonacci_overflow"
   ],
   "note": ""
  },
  {
   "property": "C03",
   "status": "proved",
   "theorems": [
    "C03_fibonacci_negative",
    "C03_fibonacci_negative_always_wrong"
   ],
   "note": ""
  },
  {
   "property": "C04",
   "status": "proved",
   "theorems": [
    "C04_power_exact",
    "C04_power_all",
    "C04_power_wrong_exactly",
    "C04_power_law_refuted"
   ],
   "note": ""
  },
  {
   "property": "C05",
   "status": "proved",
   "theorems": [
    "C05_extended_gcd2",
    "C05_least",
    "C05_size",
    "C05_rest"
   ],
   "note": ""
  },
  {
   "property": "C06",
   "status": "proved",
   "theorems": [
    "C06_modulo_inverse_some",
    "C06_modulo_inverse_iff",
    "C06_modulo_inverse_range",
    "C06_modulo_inverse_reduced_refuted"
   ],
   "note": ""
  },
  {
   "property": "C07",
   "status": "proved",
   "theorems": [
    "C07_modulo_division_solvable",
    "C07_modulo_division_gives",
    "C07_modulo_division_zero_panics",
    "C07_modulo_division_law_refuted",
    "C07_divisor_gives_zero",
    "C07_divisor_wrong"
   ],
   "note": ""
  },
  {
   "property": "C08",
   "status": "proved",
   "theorems": [
    "C08_crt_sound"
   ],
   "note": ""
  },
  {
   "property": "C09",
   "status": "proved",
   "theorems": [
    "C09_crt_some",
    "C09_crt_none",
    "C09_crt_length_mismatch",
    "C09_crt_empty_panics",
    "C09_crt_zero_modulus"
   ],
   "note": ""
  },
  {
   "property": "C10",
   "status": "proved",
   "theorems": [
    "C10_crt_bound",
    "C10_all_solutions",
    "C10_two_candidates",
    "C10_crt_least_refuted"
   ],
   "note": ""
  },
  {
   "property": "C11",
   "status": "proved",
   "theorems": [
    "C11_is_coprime"
   ],
   "note": ""
  },
  {
   "property": "C12",
   "status": "proved",
   "theorems": [
    "C12_prime_sum"
   ],
   "note": ""
  },
  {
   "property": "C13",
   "status": "proved",
   "theorems": [
    "C13_prime_sum_zero_panics",
    "C13_prime_sum_debug_overflow",
    "C13_prime_sum_release_mod",
    "C13_prime_sum_release_exact",
    "C13_prime_sum_release_wrong",
    "C13_prime_sum_release_huge_panics"
   ],
   "note": ""
  },
  {
   "property": "C14",
   "status": "proved",
   "theorems": [
    "C14_prime_sum_i_dispatch",
    "C14_prime_sum_i_keys",
    "C14_prime_sum_i_zero_panics",
    "C14_prime_sum_i_correct"
   ],
   "note": ""
  },
  {
   "property": "C15",
   "status": "partial",
   "theorems": [
    "C15_prime_sum_table_partial",
    "C15_prime_count_table_partial",
    "C15_parity_partial"
   ],
   "note": "The rows of the embedded tables up to 10^9 are checked by a proved prime-summing recursion; of the rows above 10^9 only the parity of sum against count is checked."
  },
  {
   "property": "C16",
   "status": "proved",
   "theorems": [
    "C16_prime_count_i",
    "C16_prime_count_i_keys"
   ],
   "note": ""
  },
  {
   "property": "C17",
   "status": "proved",
   "theorems": [
    "C17_display_from",
    "C17_from_display",
    "C17_from_display_refuted"
   ],
   "note": ""
  },
  {
   "property": "C18",
   "status": "proved",
   "theorems": [
    "C18_options_last_wins_sorted",
    "C18_symbol_keys",
    "C18_order_antisym",
    "C18_order_trans",
    "C18_call_options"
   ],
   "note": ""
  },
  {
   "property": "C19",
   "status": "proved",
   "theorems": [
    "C19_display_panics_iff",
    "C19_display_returns"
   ],
   "note": ""
  },
  {
   "property": "C20",
   "status": "proved",
   "theorems": [
    "C20_round_trip",
    "C20_positions",
    "C20_trees_differ"
   ],
   "note": ""
  },
  {
   "property": "C21",
   "status": "proved",
   "theorems": [
    "C21_unfaithful",
    "C21_misread",
    "C21_long_product"
   ],
   "note": ""
  },
  {
   "property": "C22",
   "status": "proved",
   "theorems": [
    "C22_head_call",
    "C22_head_single",
    "C22_head_atoms",
    "C22_rewrite_identity",
    "C22_heads_of_call",
    "C22_heads_end",
    "C22_no_head"
   ],
   "note": ""
  },
  {
   "property": "C23",
   "status": "proved",
   "theorems": [
    "C23_length_bytes",
    "C23_bytes",
    "C23_bytes_differ",
    "C23_length_is_chars_iff_ascii",
    "C23_first",
    "C23_last",
    "C23_non_string_panics"
   ],
   "note": ""
  },
  {
   "property": "C24",
   "status": "proved",
   "theorems": [
    "C24_recursion_depth_linear",
    "C24_program_accepts_or_rejects",
    "C24_parse_terminates"
   ],
   "note": ""
  },
  {
   "property": "C25",
   "status": "proved",
   "theorems": [
    "C25_accepted_text_is_consumed",
    "C25_spans_everywhere"
   ],
   "note": ""
  },
  {
   "property": "C26",
   "status": "proved",
   "theorems": [
    "C26_white_space",
    "C26_leading_whitespace"
   ],
   "note": ""
  },
  {
   "property": "C27",
   "status": "proved",
   "theorems": [
    "C27_integer",
    "C27_leading_zeros"
   ],
   "note": ""
  },
  {
   "property": "C28",
   "status": "proved",
   "theorems": [
    "C28_value",
    "C28_underscore_panics"
   ],
   "note": ""
  },
  {
   "property": "C29",
   "status": "proved",
   "theorems": [
    "C29_decimal",
    "C29_leading_zero_panics"
   ],
   "note": ""
  },
  {
   "property": "C30",
   "status": "proved",
   "theorems": [
    "C30_verbatim",
    "C30_escapes_stay",
    "C30_block",
    "C30_tag_ignored"
   ],
   "note": ""
  },
  {
   "property": "C31",
   "status": "proved",
   "theorems": [
    "C31_ascii",
    "C31_name",
    "C31_ratio_sign_refuted",
    "C31_constant_prefix",
    "C31_constant_then_expression",
    "C31_break_pass"
   ],
   "note": ""
  },
  {
   "property": "C32",
   "status": "proved",
   "theorems": [
    "C32_precedence",
    "C32_text"
   ],
   "note": ""
  },
  {
   "property": "C33",
   "status": "proved",
   "theorems": [
    "C33_unsupported_operator_truncates",
    "C33_unsupported_operators",
    "C33_text"
   ],
   "note": ""
  },
  {
   "property": "C34",
   "status": "proved",
   "theorems": [
    "C34_comment_first_panics",
    "C34_comment_first",
    "C34_comment_cuts"
   ],
   "note": ""
  },
  {
   "property": "C35",
   "status": "proved",
   "theorems": [
    "C35_call",
    "C35_numbers"
   ],
   "note": ""
  },
  {
   "property": "C36",
   "status": "proved",
   "theorems": [
    "C36_dot_call",
    "C36_text"
   ],
   "note": ""
  },
  {
   "property": "C37",
   "status": "proved",
   "theorems": [
    "C37_slice",
    "C37_defaults"
   ],
   "note": ""
  },
  {
   "property": "C38",
   "status": "proved",
   "theorems": [
    "C38_product",
    "C38_odd_first_panics",
    "C38_odd_later_panics"
   ],
   "note": ""
  },
  {
   "property": "C39",
   "status": "proved",
   "theorems": [
    "C39_first_expression",
    "C39_first_expression_anything_after",
    "C39_other_statements_panic",
    "C39_empty"
   ],
   "note": ""
  },
  {
   "property": "C40",
   "status": "proved",
   "theorems": [
    "C40_parentheses",
    "C40_space_refused"
   ],
   "note": ""
  },
  {
   "property": "C41",
   "status": "proved",
   "theorems": [
    "C41_atoms",
    "C41_program_panics",
    "C41_no_list",
    "C41_many_lists",
    "C41_one_list",
    "C41_name_and_arguments_only",
    "C41_context_unchanged",
    "C41_context_irrelevant"
   ],
   "note": ""
  },
  {
   "property": "C42",
   "status": "proved",
   "theorems": [
    "C42_times",
    "C42_power",
    "C42_other",
    "C42_factorial",
    "C42_double_factorial",
    "C42_fibonacci",
    "C42_plus",
    "C42_juxtaposed"
   ],
   "note": ""
  },
  {
   "property": "C43",
   "status": "proved",
   "theorems": [
    "C43_power_in_range",
    "C43_power_out_of_range"
   ],
   "note": ""
  },
  {
   "property": "C44",
   "status": "proved",
   "theorems": [
    "C44_history",
    "C44_answers"
   ],
   "note": ""
  },
  {
   "property": "C45",
   "status": "proved",
   "theorems": [
    "C45_last_fresh_panics",
    "C45_last_most_recent"
   ],
   "note": ""
  },
  {
   "property": "C46",
   "status": "proved",
   "theorems": [
    "C46_empty_text_panics",
    "C46_panic_disables",
    "C46_errors_are_text",
    "C46_tex_of_last"
   ],
   "note": ""
  },
  {
   "property": "C47",
   "status": "proved",
   "theorems": [
    "C47_plain_brackets_many",
    "C47_plain_brackets_one",
    "C47_list",
    "C47_infix_two_operands",
    "C47_prefix_suffix_panic",
    "C47_exactly",
    "C47_panics_exactly"
   ],
   "note": ""
  },
  {
   "property": "C48",
   "status": "proved",
   "theorems": [
    "C48_shape_only",
    "C48_leaves_once_in_order",
    "C48_exactly"
   ],
   "note": ""
  },
  {
   "property": "C49",
   "status": "proved",
   "theorems": [
    "C49_untouched_unless_parsed",
    "C49_other_paths",
    "C49_crash_states",
    "C49_success_complete",
    "C49_not_atomic",
    "C49_failed_write_leaves_strict_prefix"
   ],
   "note": ""
  },
  {
   "property": "C50",
   "status": "proved",
   "theorems": [
    "C50_factorial",
    "C50_fibonacci",
    "C50_translation",
    "C50_decimal_unchanged",
    "C50_other_panics",
    "C50_message_identifies"
   ],
   "note": ""
  },
  {
   "property": "C51",
   "status": "proved",
   "theorems": [
    "C51_reference_syntax",
    "C51_unambiguous"
   ],
   "note": ""
  },
  {
   "property": "C52",
   "status": "proved",
   "theorems": [
    "C52_refused_start"
   ],
   "note": ""
  },
  {
   "property": "C53",
   "status": "proved",
   "theorems": [
    "C53_nested"
   ],
   "note": ""
  },
  {
   "property": "C54",
   "status": "proved",
   "theorems": [
    "C54_positions",
    "C54_start_before_end",
    "C54_places_are_ordered"
   ],
   "note": ""
  },
  {
   "property": "C55",
   "status": "proved",
   "theorems": [
    "C55_nameless",
    "C55_no_calls",
    "C55_no_products",
    "C55_each_piece_matters",
    "C55_products_matter"
   ],
   "note": ""
  },
  {
   "property": "C56",
   "status": "proved",
   "theorems": [
    "C56_answers",
    "C56_playground",
    "C56_each_word_matters"
   ],
   "note": ""
  },
  {
   "property": "C57",
   "status": "proved",
   "theorems": [
    "C57_no_command",
    "C57_brackets_match"
   ],
   "note": ""
  },
  {
   "property": "C58",
   "status": "proved",
   "theorems": [
    "C58_accepts",
    "C58_rejects",
    "C58_every_rule_accepts",
    "C58_every_rule_rejects",
    "C58_stack_rules",
    "C58_unambiguous",
    "C58_total",
    "C58_parse_refuses"
   ],
   "note": ""
  },
  {
   "property": "C59",
   "status": "proved",
   "theorems": [
    "C59_tree",
    "C59_panics",
    "C59_unique"
   ],
   "note": ""
  },
  {
   "property": "C60",
   "status": "proved",
   "theorems": [
    "C60_reply",
    "C60_error",
    "C60_panic"
   ],
   "note": ""
  },
  {
   "property": "C61",
   "status": "proved",
   "theorems": [
    "C61_page"
   ],
   "note": ""
  },
  {
   "property": "C62",
   "status": "proved",
   "theorems": [
    "C62_indexing",
    "C62_unclosed",
    "C62_no_polynomial",
    "C62_at_most",
    "C62_few_signs",
    "C62_no_signs",
    "C62_whole_run"
   ],
   "note": ""
  },
  {
   "property": "C63",
   "status": "proved",
   "theorems": [
    "C63_new_line",
    "C63_expressions",
    "C63_operators_continue"
   ],
   "note": ""
  },
  {
   "property": "C64",
   "status": "proved",
   "theorems": [
    "C64_unknown_sign",
    "C64_missing_operand",
    "C64_two_signs",
    "C64_at",
    "C64_doubled",
    "C64_not_equal"
   ],
   "note": ""
  },
  {
   "property": "C65",
   "status": "proved",
   "theorems": [
    "C65_leading",
    "C65_comment_is_spacing",
    "C65_trailing",
    "C65_slash_before"
   ],
   "note": "That comments may stand wherever the reference syntax allows white space is C51_reference_syntax, whose spacing includes line comments; C63_operators_continue shows it for operators."
  },
  {
   "property": "C66",
   "status": "proved",
   "theorems": [
    "C66_at_most",
    "C66_parentheses",
    "C66_no_limit",
    "C66_pairs",
    "C66_flat_text_deep_tree",
    "C66_whole_run"
   ],
   "note": ""
  },
  {
   "property": "C67",
   "status": "proved",
   "theorems": [
    "C67_nth",
    "C67_counted_back",
    "C67_exported",
    "C67_nth_not_answered",
    "C67_back_not_answered",
    "C67_slots"
   ],
   "note": ""
  },
  {
   "property": "C68",
   "status": "proved",
   "theorems": [
    "C68_derivative",
    "C68_dictionary",
    "C68_suffix",
    "C68_not"
   ],
   "note": ""
  },
  {
   "property": "C69",
   "status": "proved",
   "theorems": [
    "C69_parenthesis_dropped",
    "C69_word_dropped",
    "C69_sign_dropped"
   ],
   "note": ""
  },
  {
   "property": "C70",
   "status": "proved",
   "theorems": [
    "C70_in_text",
    "C70_only_refused",
    "C70_expected",
    "C70_after_lines",
    "C70_stranger",
    "C70_stranger_outside",
    "C70_stranger_after_expression",
    "C70_stranger_after_operator",
    "C70_missing_operand",
    "C70_missing_operand_before",
    "C70_sign_after_expression"
   ],
   "note": ""
  },
  {
   "property": "C71",
   "status": "proved",
   "theorems": [
    "C71_outside",
    "C71_bare_outside",
    "C71_unbalanced",
    "C71_closer",
    "C71_closer_after_expression"
   ],
   "note": ""
  },
  {
   "property": "C72",
   "status": "proved",
   "theorems": [
    "C72_open_bracket",
    "C72_end",
    "C72_stranger",
    "C72_wrong_closer"
   ],
   "note": ""
  },
  {
   "property": "C73",
   "status": "proved",
   "theorems": [
    "C73_layout",
    "C73_line_ends",
    "C73_tabs",
    "C73_line_tails",
    "C73_reformatted",
    "C73_limits",
    "C73_pieces",
    "C73_replies"
   ],
   "note": ""
  },
  {
   "property": "C74",
   "status": "proved",
   "theorems": [
    "C74_zero",
    "C74_one",
    "C74_string",
    "C74_boolean",
    "C74_null",
    "C74_null_refuted",
    "C74_unanswered",
    "C74_operators",
    "C74_times",
    "C74_position",
    "C74_default"
   ],
   "note": ""
  },
  {
   "property": "C75",
   "status": "proved",
   "theorems": [
    "C75_nothing_invented",
    "C75_size",
    "C75_size_reached"
   ],
   "note": ""
  },
  {
   "property": "C76",
   "status": "proved",
   "theorems": [
    "C76_letters_alike",
    "C76_refused_alike",
    "C76_error_alike",
    "C76_error_place_alike",
    "C76_panics_alike",
    "C76_replies",
    "C76_reply_errors",
    "C76_reply_panics",
    "C76_bytes_refuted"
   ],
   "note": ""
  },
  {
   "property": "C77",
   "status": "proved",
   "theorems": [
    "C77_apart",
    "C77_apart_done",
    "C77_other_paths",
    "C77_alone",
    "C77_same_destination_refuted",
    "C77_same_output",
    "C77_torn_read"
   ],
   "note": ""
  },
  {
   "property": "C78",
   "status": "proved",
   "theorems": [
    "C78_one_by_one",
    "C78_done",
    "C78_any_order",
    "C78_no_deadlock",
    "C78_ends",
    "C78_panic_disables_all",
    "C78_pair_refuted"
   ],
   "note": ""
  },
  {
   "property": "C79",
   "status": "proved",
   "theorems": [
    "C79_image",
    "C79_never"
   ],
   "note": ""
  },
  {
   "property": "C80",
   "status": "proved",
   "theorems": [
    "C80_message",
    "C80_only_refused",
    "C80_readable",
    "C80_place",
    "C80_expected",
    "C80_mark",
    "C80_mark_refuted"
   ],
   "note": ""
  },
  {
   "property": "C81",
   "status": "proved",
   "theorems": [
    "C81_reply",
    "C81_refused",
    "C81_readable",
    "C81_same_error",
    "C81_same_place",
    "C81_mimicked",
    "C81_any_reply"
   ],
   "note": ""
  },
  {
   "property": "C82",
   "status": "proved",
   "theorems": [
    "C82_plain",
    "C82_name",
    "C82_unsigned",
    "C82_refuted"
   ],
   "note": ""
  },
  {
   "property": "C83",
   "status": "proved",
   "theorems": [
    "C83_linear",
    "C83_bound",
    "C83_power",
    "C83_reached"
   ],
   "note": ""
  },
  {
   "property": "C84",
   "status": "proved",
   "theorems": [
    "C84_comment",
    "C84_quoted",
    "C84_fenced",
    "C84_even"
   ],
   "note": ""
  },
  {
   "property": "C85",
   "status": "proved",
   "theorems": [
    "C85_less",
    "C85_greater",
    "C85_equal",
    "C85_bytes",
    "C85_total",
    "C85_transitive",
    "C85_alike_not_equal"
   ],
   "note": ""
  },
  {
   "property": "C86",
   "status": "proved",
   "theorems": [
    "C86_same_export",
    "C86_trees",
    "C86_option_refuted",
    "C86_case_refuted",
    "C86_factor_refuted"
   ],
   "note": ""
  },
  {
   "property": "C87",
   "status": "proved",
   "theorems": [
    "C87_possible",
    "C87_layout",
    "C87_tells"
   ],
   "note": ""
  },
  {
   "property": "C88",
   "status": "proved",
   "theorems": [
    "C88_line_ends_expression",
    "C88_operator_continues"
   ],
   "note": ""
  },
  {
   "property": "C89",
   "status": "proved",
   "theorems": [
    "C89_fibonacci",
    "C89_fibonacci_entries",
    "C89_euclid",
    "C89_euclid_zero",
    "C89_euclid_worst",
    "C89_euclid_rounds",
    "C89_prime_sum_table",
    "C89_prime_sum_stops",
    "C89_prime_sum_updates",
    "C89_prime_sum_order"
   ],
   "note": ""
  }
 ]
}