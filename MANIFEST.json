{
 "claims": [
  {
   "property": "C01",
   "status": "proved",
   "theorems": [
    "C01_add_subtract_negative_exact",
    "C01_plain_arrays"
   ],
   "note": ""
  },
  {
   "property": "C02",
   "status": "proved",
   "theorems": [
    "C02_multiply_exact"
   ],
   "note": ""
  },
  {
   "property": "C03",
   "status": "proved",
   "theorems": [
    "C03_bilinear_contains",
    "C03_tensordot_contains"
   ],
   "note": ""
  },
  {
   "property": "C04",
   "status": "proved",
   "theorems": [
    "C04_arbitrary_bilinear_refuted"
   ],
   "note": "refutation of the documented claim by a concrete operation"
  },
  {
   "property": "C05",
   "status": "proved",
   "theorems": [
    "C05_power_exact"
   ],
   "note": ""
  },
  {
   "property": "C06",
   "status": "proved",
   "theorems": [
    "C06_outer_power_contains",
    "C06_zeroth_power",
    "C06_negative_power",
    "C06_square_diagonal_exact"
   ],
   "note": ""
  },
  {
   "property": "C07",
   "status": "proved",
   "theorems": [
    "C07_outer_product_index_law",
    "C07_outer_product_defined",
    "C07_outer_product_rejects"
   ],
   "note": ""
  },
  {
   "property": "C08",
   "status": "proved",
   "theorems": [
    "C08_eval_polynomial_fold",
    "C08_eval_polynomial_value"
   ],
   "note": ""
  },
  {
   "property": "C09",
   "status": "proved",
   "theorems": [
    "C09_polynomial_product"
   ],
   "note": ""
  },
  {
   "property": "C10",
   "status": "proved",
   "theorems": [
    "C10_partitions_exact"
   ],
   "note": ""
  },
  {
   "property": "C11",
   "status": "proved",
   "theorems": [
    "C11_multinomial"
   ],
   "note": ""
  },
  {
   "property": "C12",
   "status": "proved",
   "theorems": [
    "C12_integer_power"
   ],
   "note": ""
  },
  {
   "property": "C13",
   "status": "proved",
   "theorems": [
    "C13_eval_contains",
    "C13_eval_contains_full",
    "C13_eval_ends_attained",
    "C13_eval_elementwise_contains"
   ],
   "note": ""
  },
  {
   "property": "C14",
   "status": "proved",
   "theorems": [
    "C14_enclose_enclosure"
   ],
   "note": ""
  },
  {
   "property": "C15",
   "status": "proved",
   "theorems": [
    "C15_add_subtract_negative_sound",
    "C15_full_rank"
   ],
   "note": ""
  },
  {
   "property": "C16",
   "status": "proved",
   "theorems": [
    "C16_multiply_sound",
    "C16_full_rank"
   ],
   "note": ""
  },
  {
   "property": "C17",
   "status": "proved",
   "theorems": [
    "C17_power_sound"
   ],
   "note": ""
  },
  {
   "property": "C18",
   "status": "proved",
   "theorems": [
    "C18_bilinear_sound"
   ],
   "note": ""
  },
  {
   "property": "C19",
   "status": "proved",
   "theorems": [
    "C19_compose_sound",
    "C19_compose_number_sound"
   ],
   "note": "the second theorem: a number as argument, inner coefficients of any broadcastable shape"
  },
  {
   "property": "C20",
   "status": "proved",
   "theorems": [
    "C20_compose_rank_deficient_refuted"
   ],
   "note": "refutation by a concrete program"
  },
  {
   "property": "C21",
   "status": "proved",
   "theorems": [
    "C21_division_sound"
   ],
   "note": ""
  },
  {
   "property": "C22",
   "status": "proved",
   "theorems": [
    "C22_degree_and_plain_coefficients"
   ],
   "note": ""
  },
  {
   "property": "C23",
   "status": "proved",
   "theorems": [
    "C23_get_function_is_kth_derivative",
    "C23_get_function_unsupported"
   ],
   "note": ""
  },
  {
   "property": "C24",
   "status": "proved",
   "theorems": [
    "C24_monotone_flags_true"
   ],
   "note": ""
  },
  {
   "property": "C25",
   "status": "proved",
   "theorems": [
    "C25_monotone_over_sound",
    "C25_monotone_over_complete",
    "C25_monotone_over_sound_away_from_rounding"
   ],
   "note": ""
  },
  {
   "property": "C26",
   "status": "proved",
   "theorems": [
    "C26_get_range_classified",
    "C26_get_range_exact",
    "C26_get_range_within_rounding",
    "C26_remaining_tables_wrong_refuted",
    "C26_unsupported_raises",
    "C26_get_range_exact_away_from_rounding"
   ],
   "note": "classification of all function ids; the plain claim (the range contains every value) is false for four of them, shown by concrete regions"
  },
  {
   "property": "C27",
   "status": "proved",
   "theorems": [
    "C27_get_range_misses_values_refuted",
    "C27_swish_enclosure_degree3_invalid_refuted"
   ],
   "note": "refutation: the claim is that the code is wrong"
  },
  {
   "property": "C28",
   "status": "proved",
   "theorems": [
    "C28_swish4_flagged_decreasing_refuted",
    "C28_swish_enclosure_degree4_empty_refuted"
   ],
   "note": "refutation: the claim is that the code is wrong"
  },
  {
   "property": "C29",
   "status": "proved",
   "theorems": [
    "C29_taylor_coefficients_correct"
   ],
   "note": ""
  },
  {
   "property": "C30",
   "status": "proved",
   "theorems": [
    "C30_sharp_enclosure_valid"
   ],
   "note": ""
  },
  {
   "property": "C31",
   "status": "proved",
   "theorems": [
    "C31_sharp_enclosure_sharp"
   ],
   "note": ""
  },
  {
   "property": "C32",
   "status": "proved",
   "theorems": [
    "C32_cap_makes_exp_enclosure_invalid_refuted"
   ],
   "note": "refutation: the claim is that the code is wrong"
  },
  {
   "property": "C33",
   "status": "proved",
   "theorems": [
    "C33_bounded_derivative_enclosure_valid",
    "C33_bounded_derivative_enclosure_arity"
   ],
   "note": ""
  },
  {
   "property": "C34",
   "status": "proved",
   "theorems": [
    "C34_even_hessian_enclosure_valid"
   ],
   "note": ""
  },
  {
   "property": "C35",
   "status": "proved",
   "theorems": [
    "C35_builtin_enclosures_valid",
    "C35_enclosures_valid_within_rounding",
    "C35_always_returns_exact_at_x0",
    "C35_valid_away_from_rounding",
    "C35_exported_enclosures"
   ],
   "note": ""
  },
  {
   "property": "C36",
   "status": "proved",
   "theorems": [
    "C36_pow_deriv_sign_positive",
    "C36_pow_deriv_sign_negative",
    "C36_pow_deriv_sign_errors"
   ],
   "note": ""
  },
  {
   "property": "C37",
   "status": "proved",
   "theorems": [
    "C37_pow_enclosure_valid_positive",
    "C37_pow_enclosure_valid_negative",
    "C37_pow_enclosure_whole_line",
    "C37_pow_enclosure_valid_natural",
    "C37_pow_enclosure_valid_touching_zero"
   ],
   "note": "also covers natural exponents with regions touching or crossing 0 where the enclosure is valid"
  },
  {
   "property": "C38",
   "status": "proved",
   "theorems": [
    "C38_pow_enclosure_across_zero_refuted"
   ],
   "note": "refutation by a concrete case"
  },
  {
   "property": "C39",
   "status": "proved",
   "theorems": [
    "C39_match_correct"
   ],
   "note": ""
  },
  {
   "property": "C40",
   "status": "proved",
   "theorems": [
    "C40_replace_is_greedy_rewriting",
    "C40_rewriting_deterministic",
    "C40_intermediate_variables"
   ],
   "note": ""
  },
  {
   "property": "C41",
   "status": "proved",
   "theorems": [
    "C41_replace_terminates_iff"
   ],
   "note": ""
  },
  {
   "property": "C42",
   "status": "proved",
   "theorems": [
    "C42_replace_preserves_meaning",
    "C42_internal_variable_needed_refuted",
    "C42_input_bound_inside_match_refuted",
    "C42_replacement_variable_captured_refuted"
   ],
   "note": "the side conditions (checked nowhere in the code) are each shown to be needed"
  },
  {
   "property": "C43",
   "status": "proved",
   "theorems": [
    "C43_replace_captures_variable_refuted"
   ],
   "note": "refutation by concrete Jaxprs"
  },
  {
   "property": "C44",
   "status": "proved",
   "theorems": [
    "C44_graph_round_trip"
   ],
   "note": ""
  },
  {
   "property": "C45",
   "status": "proved",
   "theorems": [
    "C45_comparison_decides",
    "C45_true_gives_injective_renaming",
    "C45_renamings_accepted",
    "C45_closed_consts_ignored_refuted"
   ],
   "note": ""
  },
  {
   "property": "C46",
   "status": "proved",
   "theorems": [
    "C46_taylor_bounds_sound",
    "C46_registered_functions_sound"
   ],
   "note": ""
  },
  {
   "property": "C47",
   "status": "proved",
   "theorems": [
    "C47_propagation_sound",
    "C47_variable_regions_sound"
   ],
   "note": ""
  },
  {
   "property": "C48",
   "status": "proved",
   "theorems": [
    "C48_exact_at_x0",
    "C48_exact_at_x0_centre",
    "C48_degree_and_plain_coefficients"
   ],
   "note": ""
  },
  {
   "property": "C49",
   "status": "proved",
   "theorems": [
    "C49_jit_unsound_refuted",
    "C49_jit_reversed_refuted"
   ],
   "note": "refutation by concrete programs"
  },
  {
   "property": "C50",
   "status": "proved",
   "theorems": [
    "C50_index_law",
    "C50_batched_dot_unsound_refuted"
   ],
   "note": "index law without batch axes; refutation by a concrete program with one"
  },
  {
   "property": "C51",
   "status": "proved",
   "theorems": [
    "C51_broadcast_sum_unsound_refuted"
   ],
   "note": "refutation by a concrete program"
  },
  {
   "property": "C52",
   "status": "proved",
   "theorems": [
    "C52_pow_with_propagation_raises"
   ],
   "note": ""
  },
  {
   "property": "C53",
   "status": "proved",
   "theorems": [
    "C53_accessors_agree",
    "C53_final_interval"
   ],
   "note": ""
  },
  {
   "property": "C54",
   "status": "proved",
   "theorems": [
    "C54_pow_integer_valued_exponent_raises",
    "C54_positive_integers_raise"
   ],
   "note": ""
  },
  {
   "property": "C55",
   "status": "proved",
   "theorems": [
    "C55_rewritten_bounds_sound",
    "C55_registered_functions_sound"
   ],
   "note": ""
  },
  {
   "property": "C56",
   "status": "proved",
   "theorems": [
    "C56_rewriting_changes_exactly_calls",
    "C56_no_call_left",
    "C56_calls_are_calls"
   ],
   "note": ""
  },
  {
   "property": "C57",
   "status": "proved",
   "theorems": [
    "C57_function_registered_once",
    "C57_registered_function_is_used",
    "C57_last_registration_wins"
   ],
   "note": ""
  },
  {
   "property": "C58",
   "status": "proved",
   "theorems": [
    "C58_constant_argument_raises",
    "C58_sum_with_constant_softplus_refuted"
   ],
   "note": "general raise theorem and a concrete program"
  },
  {
   "property": "C59",
   "status": "proved",
   "theorems": [
    "C59_replace_preserves_function",
    "C59_intermediate_used_later_refuted",
    "C59_dropped_result_captures_refuted"
   ],
   "note": "the refutations show that the conditions are needed"
  },
  {
   "property": "C60",
   "status": "proved",
   "theorems": [
    "C60_raises_only_what_generators_raise",
    "C60_returns_valid_bounds",
    "C60_polynomials_return",
    "C60_registered_functions",
    "C60_total_functions_return"
   ],
   "note": "accepted_program lists the equations excluded because they raise by themselves (some of them: C52, C54, C58)"
  },
  {
   "property": "C61",
   "status": "proved",
   "theorems": [
    "C61_smaller_region_tighter",
    "C61_registered_functions"
   ],
   "note": ""
  },
  {
   "property": "C62",
   "status": "proved",
   "theorems": [
    "C62_propagation_never_loosens",
    "C62_registered_functions"
   ],
   "note": ""
  },
  {
   "property": "C63",
   "status": "proved",
   "theorems": [
    "C63_interval_operations_isotone",
    "C63_evaluation_isotone"
   ],
   "note": ""
  },
  {
   "property": "C64",
   "status": "proved",
   "theorems": [
    "C64_elementwise_isotone",
    "C64_rounded_tables_isotone",
    "C64_powers_isotone"
   ],
   "note": ""
  },
  {
   "property": "C65",
   "status": "proved",
   "theorems": [
    "C65_convolution_value",
    "C65_convolution_size",
    "C65_array_argument_raises"
   ],
   "note": "the scalar-argument half is C46_taylor_bounds_sound, whose hypotheses do not assume anything about convolutions"
  },
  {
   "property": "C66",
   "status": "proved",
   "theorems": [
    "C66_polynomial_part_approximates",
    "C66_gradient",
    "C66_directional_derivative",
    "C66_taylor_coefficients",
    "C66_coefficients_do_not_depend_on_region"
   ],
   "note": "for supported programs (C46)"
  },
  {
   "property": "C67",
   "status": "proved",
   "theorems": [
    "C67_integral_bounds_one_cell",
    "C67_integral_bounds_grid",
    "C67_odd_degree_raises"
   ],
   "note": ""
  },
  {
   "property": "C68",
   "status": "proved",
   "theorems": [
    "C68_minimize_1d_quadratic"
   ],
   "note": ""
  },
  {
   "property": "C69",
   "status": "proved",
   "theorems": [
    "C69_safe_learning_rate",
    "C69_strict_decrease",
    "C69_saferate_never_increases_the_loss",
    "C69_nan_halves_refuted"
   ],
   "note": "the gradient and the tracing of next_loss are parameters: any update direction is allowed"
  },
  {
   "property": "C70",
   "status": "proved",
   "theorems": [
    "C70_polynomials_have_plain_coefficients",
    "C70_polynomials_bounded_exactly",
    "C70_integrals_of_polynomials_exact",
    "C70_integrals_of_polynomials_exact_on_grids",
    "C70_quadratic_losses_are_minimised"
   ],
   "note": "the first theorem holds for any type of numbers, also floats"
  },
  {
   "property": "C71",
   "status": "proved",
   "theorems": [
    "C71_degree_0_bounds_contain_float_values",
    "C71_real_values_refuted",
    "C71_degree_1_refuted",
    "C71_division_refuted",
    "C71_dot_product_refuted"
   ],
   "note": "overflow, NaN and signed zeros are not modelled; powers are repeated products and sums go in one fixed order, the same for the program and for the bounds; the refutations use Flocq's binary32 rounding"
  },
  {
   "property": "C72",
   "status": "proved",
   "theorems": [
    "C72_array_argument_raises",
    "C72_reshape_raises",
    "C72_broadcast_degree_1_raises",
    "C72_reshape_refuted"
   ],
   "note": ""
  },
  {
   "property": "C73",
   "status": "proved",
   "theorems": [
    "C73_mlp_meaning",
    "C73_mlp_bounds_valid",
    "C73_mlp_bounds_returned"
   ],
   "note": "the Jaxpr is the one net_program (Mlp.v) emits; other traces of the same network are covered by the general theorems C46 and C60 as far as those go"
  },
  {
   "property": "C74",
   "status": "proved",
   "theorems": [
    "C74_fewer_axes_raises",
    "C74_vector_plus_number_raises"
   ],
   "note": ""
  },
  {
   "property": "C75",
   "status": "proved",
   "theorems": [
    "C75_gap_of_order_max_degree",
    "C75_registered_functions"
   ],
   "note": ""
  },
  {
   "property": "C76",
   "status": "proved",
   "theorems": [
    "C76_cnn_meaning",
    "C76_cnn_bounds_valid",
    "C76_cnn_bounds_returned"
   ],
   "note": "the Jaxpr is the one cnn_program (Cnn.v) emits; no pooling"
  },
  {
   "property": "C77",
   "status": "proved",
   "theorems": [
    "C77_exp_bounds_best",
    "C77_log_bounds_best",
    "C77_readme"
   ],
   "note": "in exact arithmetic"
  },
  {
   "property": "C78",
   "status": "proved",
   "theorems": [
    "C78_order_and_unused_equations",
    "C78_any_schedule",
    "C78_names_and_literals"
   ],
   "note": "for any type of numbers"
  },
  {
   "property": "C79",
   "status": "proved",
   "theorems": [
    "C79_trailing_axes",
    "C79_size_bound",
    "C79_power_sum_is_full",
    "C79_linear_memory_refuted"
   ],
   "note": "README's claim of linear memory holds at degree 1 and is refuted above"
  },
  {
   "property": "C80",
   "status": "proved",
   "theorems": [
    "C80_sound_for_any_centre",
    "C80_centre_free_programs",
    "C80_outside_unsound_refuted"
   ],
   "note": "the unrestricted reading of the docstring is refuted; the positive theorems state where it holds"
  },
  {
   "property": "C81",
   "status": "proved",
   "theorems": [
    "C81_degree_0_does_not_depend_on_x0",
    "C81_degree_0_bounds_are_the_exact_range",
    "C81_registered_functions",
    "C81_registered_independence",
    "C81_two_dependent_operands_refuted",
    "C81_array_power_refuted"
   ],
   "note": "the range is exact in exact arithmetic; the refutations show why the condition is there"
  },
  {
   "property": "C82",
   "status": "proved",
   "theorems": [
    "C82_gap_uniform_in_the_centre",
    "C82_registered_functions",
    "C82_integral_bounds_converge",
    "C82_integral_error",
    "C82_total_programs_converge"
   ],
   "note": "M is only shown to exist; exact arithmetic; division, powers with a real exponent and functions not defined everywhere (log, sqrt, ...) are outside the statement. The theorems about the registered functions use the guarded generators of C75; C82_integral_error is for valid generators (C46, C67)"
  }
 ]
}