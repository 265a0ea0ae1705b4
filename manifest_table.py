M = {
"C01": ("proved", ["C01_add_subtract_negative_exact", "C01_plain_arrays"], ""),
"C02": ("proved", ["C02_multiply_exact"], ""),
"C03": ("proved", ["C03_bilinear_contains", "C03_tensordot_contains"], ""),
"C04": ("proved", ["C04_arbitrary_bilinear_refuted"], "refutation of the documented claim by a concrete operation"),
"C05": ("proved", ["C05_power_exact"], ""),
"C06": ("proved", ["C06_outer_power_contains", "C06_zeroth_power", "C06_negative_power", "C06_square_diagonal_exact"], ""),
"C07": ("proved", ["C07_outer_product_index_law", "C07_outer_product_defined", "C07_outer_product_rejects"], ""),
"C08": ("proved", ["C08_eval_polynomial_fold", "C08_eval_polynomial_value"], ""),
"C09": ("proved", ["C09_polynomial_product"], ""),
"C10": ("proved", ["C10_partitions_exact"], ""),
"C11": ("proved", ["C11_multinomial"], ""),
"C12": ("proved", ["C12_integer_power"], ""),
"C13": ("proved", ["C13_eval_contains", "C13_eval_contains_full", "C13_eval_ends_attained", "C13_eval_elementwise_contains"], ""),
"C14": ("proved", ["C14_enclose_enclosure"], ""),
"C15": ("proved", ["C15_add_subtract_negative_sound", "C15_full_rank"], ""),
"C16": ("proved", ["C16_multiply_sound", "C16_full_rank"], ""),
"C17": ("proved", ["C17_power_sound"], ""),
"C18": ("proved", ["C18_bilinear_sound"], ""),
"C19": ("proved", ["C19_compose_sound", "C19_compose_number_sound"], "the second theorem: a number as argument, inner coefficients of any broadcastable shape"),
"C20": ("proved", ["C20_compose_rank_deficient_refuted"], "refutation by a concrete program"),
"C22": ("proved", ["C22_degree_and_plain_coefficients"], ""),
"C39": ("proved", ["C39_match_correct"], ""),
"C40": ("proved", ["C40_replace_is_greedy_rewriting", "C40_rewriting_deterministic", "C40_intermediate_variables"], ""),
"C41": ("proved", ["C41_replace_terminates_iff"], ""),
"C42": ("proved", ["C42_replace_preserves_meaning", "C42_internal_variable_needed_refuted", "C42_input_bound_inside_match_refuted", "C42_replacement_variable_captured_refuted"], "the side conditions (checked nowhere in the code) are each shown to be needed"),
"C43": ("proved", ["C43_replace_captures_variable_refuted"], "refutation by concrete Jaxprs"),
"C44": ("proved", ["C44_graph_round_trip"], ""),
"C45": ("proved", ["C45_comparison_decides", "C45_true_gives_injective_renaming", "C45_renamings_accepted", "C45_closed_consts_ignored_refuted"], ""),
"C23": ("proved", ["C23_get_function_is_kth_derivative", "C23_get_function_unsupported"], ""),
"C24": ("proved", ["C24_monotone_flags_true"], ""),
"C25": ("proved", ["C25_monotone_over_sound", "C25_monotone_over_complete", "C25_monotone_over_sound_away_from_rounding"], ""),
"C26": ("proved", ["C26_get_range_classified", "C26_get_range_exact", "C26_get_range_within_rounding", "C26_remaining_tables_wrong_refuted", "C26_unsupported_raises", "C26_get_range_exact_away_from_rounding"], "classification of all function ids; the plain claim (the range contains every value) is false for four of them, shown by concrete regions"),
"C27": ("proved", ["C27_get_range_misses_values_refuted", "C27_swish_enclosure_degree3_invalid_refuted"], "refutation: the claim is that the code is wrong"),
"C28": ("proved", ["C28_swish4_flagged_decreasing_refuted", "C28_swish_enclosure_degree4_empty_refuted"], "refutation: the claim is that the code is wrong"),
"C29": ("proved", ["C29_taylor_coefficients_correct"], ""),
"C30": ("proved", ["C30_sharp_enclosure_valid"], ""),
"C31": ("proved", ["C31_sharp_enclosure_sharp"], ""),
"C32": ("proved", ["C32_cap_makes_exp_enclosure_invalid_refuted"], "refutation: the claim is that the code is wrong"),
"C33": ("proved", ["C33_bounded_derivative_enclosure_valid", "C33_bounded_derivative_enclosure_arity"], ""),
"C34": ("proved", ["C34_even_hessian_enclosure_valid"], ""),
"C35": ("proved", ["C35_builtin_enclosures_valid", "C35_enclosures_valid_within_rounding", "C35_always_returns_exact_at_x0", "C35_valid_away_from_rounding", "C35_exported_enclosures"], ""),
"C36": ("proved", ["C36_pow_deriv_sign_positive", "C36_pow_deriv_sign_negative", "C36_pow_deriv_sign_errors"], ""),
"C37": ("proved", ["C37_pow_enclosure_valid_positive", "C37_pow_enclosure_valid_negative", "C37_pow_enclosure_whole_line", "C37_pow_enclosure_valid_natural", "C37_pow_enclosure_valid_touching_zero"], "also covers natural exponents with regions touching or crossing 0 where the enclosure is valid"),
"C38": ("proved", ["C38_pow_enclosure_across_zero_refuted"], "refutation by a concrete case"),
"C46": ("proved", ["C46_taylor_bounds_sound", "C46_registered_functions_sound"], ""),
"C47": ("proved", ["C47_propagation_sound", "C47_variable_regions_sound"], ""),
"C48": ("proved", ["C48_exact_at_x0", "C48_exact_at_x0_centre", "C48_degree_and_plain_coefficients"], ""),
"C53": ("proved", ["C53_accessors_agree", "C53_final_interval"], ""),
"C21": ("proved", ["C21_division_sound"], ""),
"C49": ("proved", ["C49_jit_unsound_refuted", "C49_jit_reversed_refuted"], "refutation by concrete programs"),
"C50": ("proved", ["C50_index_law", "C50_batched_dot_unsound_refuted"], "index law without batch axes; refutation by a concrete program with one"),
"C51": ("proved", ["C51_broadcast_sum_unsound_refuted"], "refutation by a concrete program"),
"C52": ("proved", ["C52_pow_with_propagation_raises"], ""),
"C54": ("proved", ["C54_pow_integer_valued_exponent_raises", "C54_positive_integers_raise"], ""),
"C55": ("proved", ["C55_rewritten_bounds_sound", "C55_registered_functions_sound"], ""),
"C56": ("proved", ["C56_rewriting_changes_exactly_calls", "C56_no_call_left", "C56_calls_are_calls"], ""),
"C57": ("proved", ["C57_function_registered_once", "C57_registered_function_is_used", "C57_last_registration_wins"], ""),
"C58": ("proved", ["C58_constant_argument_raises", "C58_sum_with_constant_softplus_refuted"], "general raise theorem and a concrete program"),
"C59": ("proved", ["C59_replace_preserves_function", "C59_intermediate_used_later_refuted", "C59_dropped_result_captures_refuted"], "the refutations show that the conditions are needed"),
"C60": ("proved", ["C60_raises_only_what_generators_raise", "C60_returns_valid_bounds", "C60_polynomials_return", "C60_registered_functions", "C60_total_functions_return"], "accepted_program lists the equations excluded because they raise by themselves (some of them: C52, C54, C58)"),
"C61": ("proved", ["C61_smaller_region_tighter", "C61_registered_functions"], ""),
"C62": ("proved", ["C62_propagation_never_loosens", "C62_registered_functions"], ""),
"C63": ("proved", ["C63_interval_operations_isotone", "C63_evaluation_isotone"], ""),
"C64": ("proved", ["C64_elementwise_isotone", "C64_rounded_tables_isotone", "C64_powers_isotone"], ""),
"C65": ("proved", ["C65_convolution_value", "C65_convolution_size", "C65_array_argument_raises"], "the scalar-argument half is C46_taylor_bounds_sound, whose hypotheses do not assume anything about convolutions"),
"C66": ("proved", ["C66_polynomial_part_approximates", "C66_gradient", "C66_directional_derivative", "C66_taylor_coefficients", "C66_coefficients_do_not_depend_on_region"], "for supported programs (C46)"),
"C67": ("proved", ["C67_integral_bounds_one_cell", "C67_integral_bounds_grid", "C67_odd_degree_raises"], ""),
"C68": ("proved", ["C68_minimize_1d_quadratic"], ""),
"C69": ("proved", ["C69_safe_learning_rate", "C69_strict_decrease", "C69_saferate_never_increases_the_loss", "C69_nan_halves_refuted"], "the gradient and the tracing of next_loss are parameters: any update direction is allowed"),
"C70": ("proved", ["C70_polynomials_have_plain_coefficients", "C70_polynomials_bounded_exactly", "C70_integrals_of_polynomials_exact", "C70_integrals_of_polynomials_exact_on_grids", "C70_quadratic_losses_are_minimised"], "the first theorem holds for any type of numbers, also floats"),
"C71": ("proved", ["C71_degree_0_bounds_contain_float_values", "C71_real_values_refuted", "C71_degree_1_refuted", "C71_division_refuted", "C71_dot_product_refuted"], "overflow, NaN and signed zeros are not modelled; powers are repeated products and sums go in one fixed order, the same for the program and for the bounds; the refutations use Flocq's binary32 rounding"),
"C72": ("proved", ["C72_array_argument_raises", "C72_reshape_raises", "C72_broadcast_degree_1_raises", "C72_reshape_refuted"], ""),
"C73": ("proved", ["C73_mlp_meaning", "C73_mlp_bounds_valid", "C73_mlp_bounds_returned"], "the Jaxpr is the one net_program (Mlp.v) emits; other traces of the same network are covered by the general theorems C46 and C60 as far as those go"),
"C74": ("proved", ["C74_fewer_axes_raises", "C74_vector_plus_number_raises"], ""),
"C75": ("proved", ["C75_gap_of_order_max_degree", "C75_registered_functions"], ""),
"C76": ("proved", ["C76_cnn_meaning", "C76_cnn_bounds_valid", "C76_cnn_bounds_returned"], "the Jaxpr is the one cnn_program (Cnn.v) emits; no pooling"),
"C77": ("proved", ["C77_exp_bounds_best", "C77_log_bounds_best", "C77_readme"], "in exact arithmetic"),
"C78": ("proved", ["C78_order_and_unused_equations", "C78_any_schedule", "C78_names_and_literals"], "for any type of numbers"),
"C79": ("proved", ["C79_trailing_axes", "C79_size_bound", "C79_power_sum_is_full", "C79_linear_memory_refuted"], "README's claim of linear memory holds at degree 1 and is refuted above"),
"C80": ("proved", ["C80_sound_for_any_centre", "C80_centre_free_programs", "C80_outside_unsound_refuted"], "the unrestricted reading of the docstring is refuted; the positive theorems state where it holds"),
"C81": ("proved", ["C81_degree_0_does_not_depend_on_x0", "C81_degree_0_bounds_are_the_exact_range", "C81_registered_functions", "C81_registered_independence", "C81_two_dependent_operands_refuted", "C81_array_power_refuted"], "the range is exact in exact arithmetic; the refutations show why the condition is there"),
"C82": ("proved", ["C82_gap_uniform_in_the_centre", "C82_registered_functions", "C82_integral_bounds_converge", "C82_integral_error", "C82_total_programs_converge"], "M is only shown to exist; exact arithmetic; division, powers with a real exponent and functions not defined everywhere (log, sqrt, ...) are outside the statement. The theorems about the registered functions use the guarded generators of C75; C82_integral_error is for valid generators (C46, C67)"),
}
