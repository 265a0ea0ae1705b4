# Print Assumptions of every claimed theorem

Generated by tools/assumptions.py.

## Closed under the global context (no axiom)

* C08: `C08_eval_polynomial_fold` (PropPoly.v)
* C10: `C10_partitions_exact` (PropPoly.v)
* C11: `C11_multinomial` (PropPoly.v)
* C39: `C39_match_correct` (PropGraph.v)
* C40: `C40_replace_is_greedy_rewriting` (PropGraph.v)
* C40: `C40_rewriting_deterministic` (PropGraph.v)
* C40: `C40_intermediate_variables` (PropGraph.v)
* C41: `C41_replace_terminates_iff` (PropGraph.v)
* C42: `C42_replace_preserves_meaning` (PropGraph.v)
* C42: `C42_internal_variable_needed_refuted` (PropGraph.v)
* C42: `C42_input_bound_inside_match_refuted` (PropGraph.v)
* C42: `C42_replacement_variable_captured_refuted` (PropGraph.v)
* C43: `C43_replace_captures_variable_refuted` (PropJaxpr.v)
* C44: `C44_graph_round_trip` (PropJaxpr.v)
* C45: `C45_comparison_decides` (PropJaxpr.v)
* C45: `C45_true_gives_injective_renaming` (PropJaxpr.v)
* C45: `C45_renamings_accepted` (PropJaxpr.v)
* C45: `C45_closed_consts_ignored_refuted` (PropJaxpr.v)
* C53: `C53_final_interval` (PropJax.v)
* C56: `C56_rewriting_changes_exactly_calls` (PropPipeline.v)
* C56: `C56_no_call_left` (PropPipeline.v)
* C56: `C56_calls_are_calls` (PropPipeline.v)
* C57: `C57_function_registered_once` (PropPipeline.v)
* C57: `C57_registered_function_is_used` (PropPipeline.v)
* C57: `C57_last_registration_wins` (PropPipeline.v)
* C59: `C59_replace_preserves_function` (PropReplace.v)
* C59: `C59_intermediate_used_later_refuted` (PropReplace.v)
* C59: `C59_dropped_result_captures_refuted` (PropReplace.v)
* C65: `C65_convolution_size` (PropConv.v)
* C70: `C70_polynomials_have_plain_coefficients` (PropPolynomial.v)
* C78: `C78_order_and_unused_equations` (PropSchedule.v)
* C78: `C78_any_schedule` (PropSchedule.v)
* C78: `C78_names_and_literals` (PropSchedule.v)
* C79: `C79_trailing_axes` (PropMemory.v)
* C81: `C81_degree_0_does_not_depend_on_x0` (DegreeZero.v)

## `ClassicalDedekindReals.sig_forall_dec`

* C06: `C06_zeroth_power` (PropArith.v)

## `ClassicalDedekindReals.sig_forall_dec`, `FunctionalExtensionality.functional_extensionality_dep`

* C01: `C01_add_subtract_negative_exact` (PropArith.v)
* C01: `C01_plain_arrays` (PropArith.v)
* C02: `C02_multiply_exact` (PropArith.v)
* C03: `C03_bilinear_contains` (PropArith.v)
* C03: `C03_tensordot_contains` (PropArith.v)
* C04: `C04_arbitrary_bilinear_refuted` (PropArith.v)
* C05: `C05_power_exact` (PropArith.v)
* C06: `C06_outer_power_contains` (PropArith.v)
* C06: `C06_negative_power` (PropArith.v)
* C06: `C06_square_diagonal_exact` (PropArith.v)
* C07: `C07_outer_product_index_law` (PropArith.v)
* C07: `C07_outer_product_defined` (PropArith.v)
* C07: `C07_outer_product_rejects` (PropArith.v)
* C08: `C08_eval_polynomial_value` (PropPoly.v)
* C09: `C09_polynomial_product` (PropPoly.v)
* C12: `C12_integer_power` (PropPoly.v)
* C13: `C13_eval_contains` (PropEnclosure.v)
* C13: `C13_eval_contains_full` (PropEnclosure.v)
* C13: `C13_eval_ends_attained` (PropEnclosure.v)
* C13: `C13_eval_elementwise_contains` (PropEnclosure.v)
* C14: `C14_enclose_enclosure` (PropEnclosure.v)
* C15: `C15_add_subtract_negative_sound` (PropEnclosure.v)
* C15: `C15_full_rank` (PropEnclosure.v)
* C16: `C16_multiply_sound` (PropEnclosure.v)
* C16: `C16_full_rank` (PropEnclosure.v)
* C17: `C17_power_sound` (PropEnclosure.v)
* C18: `C18_bilinear_sound` (PropEnclosure.v)
* C19: `C19_compose_sound` (PropEnclosure.v)
* C19: `C19_compose_number_sound` (PropEnclosure.v)
* C20: `C20_compose_rank_deficient_refuted` (PropEnclosure.v)
* C22: `C22_degree_and_plain_coefficients` (PropDegree.v)
* C25: `C25_monotone_over_sound` (PropElementwise.v)
* C25: `C25_monotone_over_complete` (PropElementwise.v)
* C33: `C33_bounded_derivative_enclosure_arity` (PropPrimitive.v)
* C36: `C36_pow_deriv_sign_errors` (PropPower.v)
* C46: `C46_taylor_bounds_sound` (PropJax.v)
* C47: `C47_propagation_sound` (PropJax.v)
* C47: `C47_variable_regions_sound` (PropJax.v)
* C48: `C48_exact_at_x0` (PropJax.v)
* C48: `C48_exact_at_x0_centre` (PropJax.v)
* C48: `C48_degree_and_plain_coefficients` (PropJax.v)
* C49: `C49_jit_unsound_refuted` (PropJaxLimits.v)
* C49: `C49_jit_reversed_refuted` (PropJaxLimits.v)
* C50: `C50_index_law` (PropJaxLimits.v)
* C50: `C50_batched_dot_unsound_refuted` (PropJaxLimits.v)
* C51: `C51_broadcast_sum_unsound_refuted` (PropJaxLimits.v)
* C52: `C52_pow_with_propagation_raises` (PropJaxLimits.v)
* C53: `C53_accessors_agree` (PropJax.v)
* C54: `C54_pow_integer_valued_exponent_raises` (PropJaxLimits.v)
* C55: `C55_rewritten_bounds_sound` (PropPipeline.v)
* C58: `C58_constant_argument_raises` (PropPipeline.v)
* C60: `C60_raises_only_what_generators_raise` (PropTotal.v)
* C60: `C60_returns_valid_bounds` (PropTotal.v)
* C60: `C60_polynomials_return` (PropTotal.v)
* C61: `C61_smaller_region_tighter` (PropIso.v)
* C62: `C62_propagation_never_loosens` (PropIso.v)
* C63: `C63_interval_operations_isotone` (PropIso.v)
* C63: `C63_evaluation_isotone` (PropIso.v)
* C65: `C65_convolution_value` (PropConv.v)
* C65: `C65_array_argument_raises` (PropConv.v)
* C66: `C66_polynomial_part_approximates` (PropTaylor.v)
* C66: `C66_gradient` (PropTaylor.v)
* C66: `C66_directional_derivative` (PropTaylor.v)
* C66: `C66_coefficients_do_not_depend_on_region` (PropTaylor.v)
* C67: `C67_odd_degree_raises` (PropNotebooks.v)
* C68: `C68_minimize_1d_quadratic` (PropNotebooks.v)
* C69: `C69_safe_learning_rate` (PropNotebooks.v)
* C69: `C69_strict_decrease` (PropNotebooks.v)
* C69: `C69_saferate_never_increases_the_loss` (PropNotebooks.v)
* C69: `C69_nan_halves_refuted` (PropNotebooks.v)
* C70: `C70_polynomials_bounded_exactly` (PropPolynomial.v)
* C70: `C70_quadratic_losses_are_minimised` (PropPolynomial.v)
* C71: `C71_degree_0_bounds_contain_float_values` (PropFloat.v)
* C72: `C72_array_argument_raises` (PropShapes.v)
* C72: `C72_reshape_raises` (PropShapes.v)
* C72: `C72_broadcast_degree_1_raises` (PropShapes.v)
* C72: `C72_reshape_refuted` (PropShapes.v)
* C74: `C74_fewer_axes_raises` (PropSlope.v)
* C75: `C75_gap_of_order_max_degree` (PropGap.v)
* C79: `C79_size_bound` (PropMemory.v)
* C79: `C79_power_sum_is_full` (PropMemory.v)
* C79: `C79_linear_memory_refuted` (PropMemory.v)
* C80: `C80_sound_for_any_centre` (PropOutside.v)
* C82: `C82_gap_uniform_in_the_centre` (PropConverge.v)
* C82: `C82_integral_bounds_converge` (PropConverge.v)

## `ClassicalDedekindReals.sig_forall_dec`, `ClassicalDedekindReals.sig_not_dec`, `FunctionalExtensionality.functional_extensionality_dep`

* C36: `C36_pow_deriv_sign_negative` (PropPower.v)
* C81: `C81_degree_0_bounds_are_the_exact_range` (PropDegreeZero.v)

## `ClassicalDedekindReals.sig_forall_dec`, `ClassicalDedekindReals.sig_not_dec`, `Classical_Prop.classic`, `FunctionalExtensionality.functional_extensionality_dep`

* C21: `C21_division_sound` (PropTable.v)
* C23: `C23_get_function_is_kth_derivative` (PropElementwise.v)
* C23: `C23_get_function_unsupported` (PropElementwise.v)
* C24: `C24_monotone_flags_true` (PropElementwise.v)
* C25: `C25_monotone_over_sound_away_from_rounding` (PropClear.v)
* C26: `C26_get_range_classified` (PropNear.v)
* C26: `C26_get_range_exact` (PropRange.v)
* C26: `C26_get_range_within_rounding` (PropNear.v)
* C26: `C26_remaining_tables_wrong_refuted` (PropNear.v)
* C26: `C26_unsupported_raises` (PropNear.v)
* C26: `C26_get_range_exact_away_from_rounding` (PropClear.v)
* C27: `C27_get_range_misses_values_refuted` (PropRange.v)
* C27: `C27_swish_enclosure_degree3_invalid_refuted` (PropRange.v)
* C28: `C28_swish4_flagged_decreasing_refuted` (PropRange.v)
* C28: `C28_swish_enclosure_degree4_empty_refuted` (PropRange.v)
* C29: `C29_taylor_coefficients_correct` (PropElementwise.v)
* C30: `C30_sharp_enclosure_valid` (PropPrimitive.v)
* C31: `C31_sharp_enclosure_sharp` (PropPrimitive.v)
* C32: `C32_cap_makes_exp_enclosure_invalid_refuted` (PropPrimitive.v)
* C33: `C33_bounded_derivative_enclosure_valid` (PropPrimitive.v)
* C34: `C34_even_hessian_enclosure_valid` (PropPrimitive.v)
* C35: `C35_builtin_enclosures_valid` (PropPrimitive.v)
* C35: `C35_enclosures_valid_within_rounding` (PropNear.v)
* C35: `C35_always_returns_exact_at_x0` (PropCentre.v)
* C35: `C35_valid_away_from_rounding` (PropClear.v)
* C35: `C35_exported_enclosures` (PropExported.v)
* C36: `C36_pow_deriv_sign_positive` (PropPower.v)
* C37: `C37_pow_enclosure_valid_positive` (PropPower.v)
* C37: `C37_pow_enclosure_valid_negative` (PropPower.v)
* C37: `C37_pow_enclosure_whole_line` (PropPower.v)
* C37: `C37_pow_enclosure_valid_natural` (PropPower.v)
* C37: `C37_pow_enclosure_valid_touching_zero` (PropPowerZero.v)
* C38: `C38_pow_enclosure_across_zero_refuted` (PropPower.v)
* C46: `C46_registered_functions_sound` (PropTable.v)
* C54: `C54_positive_integers_raise` (PropTotalTable.v)
* C55: `C55_registered_functions_sound` (PropPipeline.v)
* C58: `C58_sum_with_constant_softplus_refuted` (ExamplesPipeline.v)
* C60: `C60_registered_functions` (PropTotalTable.v)
* C60: `C60_total_functions_return` (PropTotalTable.v)
* C61: `C61_registered_functions` (PropIso.v)
* C62: `C62_registered_functions` (PropIso.v)
* C64: `C64_elementwise_isotone` (PropIso.v)
* C64: `C64_rounded_tables_isotone` (PropIso.v)
* C64: `C64_powers_isotone` (PropIso.v)
* C66: `C66_taylor_coefficients` (PropTaylor.v)
* C67: `C67_integral_bounds_one_cell` (PropNotebooks.v)
* C67: `C67_integral_bounds_grid` (PropNotebooks.v)
* C70: `C70_integrals_of_polynomials_exact` (PropPolynomial.v)
* C70: `C70_integrals_of_polynomials_exact_on_grids` (PropPolynomial.v)
* C71: `C71_real_values_refuted` (ExamplesFloat.v)
* C71: `C71_degree_1_refuted` (ExamplesFloat.v)
* C71: `C71_division_refuted` (ExamplesFloat.v)
* C71: `C71_dot_product_refuted` (ExamplesFloat.v)
* C73: `C73_mlp_meaning` (PropMlp.v)
* C73: `C73_mlp_bounds_valid` (PropMlp.v)
* C73: `C73_mlp_bounds_returned` (PropMlp.v)
* C74: `C74_vector_plus_number_raises` (PropSlope.v)
* C75: `C75_registered_functions` (PropGap.v)
* C76: `C76_cnn_meaning` (PropCnn.v)
* C76: `C76_cnn_bounds_valid` (PropCnn.v)
* C76: `C76_cnn_bounds_returned` (PropCnn.v)
* C77: `C77_exp_bounds_best` (PropQuickstart.v)
* C77: `C77_log_bounds_best` (PropQuickstart.v)
* C77: `C77_readme` (PropQuickstart.v)
* C80: `C80_centre_free_programs` (PropOutside.v)
* C80: `C80_outside_unsound_refuted` (PropOutside.v)
* C81: `C81_registered_functions` (PropDegreeZeroTable.v)
* C81: `C81_registered_independence` (PropDegreeZeroTable.v)
* C81: `C81_two_dependent_operands_refuted` (PropDegreeZeroTable.v)
* C81: `C81_array_power_refuted` (PropDegreeZeroTable.v)
* C82: `C82_registered_functions` (PropConverge.v)
* C82: `C82_integral_error` (PropConverge.v)
* C82: `C82_total_programs_converge` (PropIntegralTotal.v)
