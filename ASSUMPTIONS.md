# What Print Assumptions lists for each theorem

Generated by tools/assumptions.py from the compiled files.

## Closed under the global context (no axioms)

`c51_add`, `c51_mul`, `c51_fractions`, `c51_not_associative`, `c52_sub_self`, `c52_div_self`, `c52_returns`, `c52_neg_neg`, `c52_neg_neg_constants`, `c52_release_refuted`, `c11_undefined_divided`, `c11_divided_by_undefined`, `c99_number`, `c99_expression`, `c99_limit`, `c99_taylor`, `c99_derivative`, `c99_number_pretty`, `c99_expression_pretty`, `c99_limit_pretty`, `c99_taylor_pretty`, `c99_derivative_pretty`, `c97_clone`, `c97_substitute`, `c97_substitute_result`, `c97_aggregate`, `c97_derivative_result`, `c97_derivative`, `c97_taylor`, `c97_quadratic`, `c97_display`, `c97_all_or_nothing`, `c97_limit`, `c97_limit_entire`, `c94_aggregate`, `c94_substitute`, `c94_derivative`, `c94_taylor`, `c94_limit`, `c94_integers`, `c94_functions`, `c94_conversions`, `c94_references`, `c41_expression`, `c41_built`, `c41_number`, `c41_results`, `c41_limit_value`, `c41_ill_formed`, `c42_reading_unique`, `c42_exact`, `c42_injective`, `c42_integer`, `c42_constants`, `c42_float`, `c42_float_rounding`, `c42_nonfinite`, `c42_fraction`, `c43_unary`, `c43_binary`, `c43_balanced`, `c43_readable`, `c48_text`, `c48_returns`, `c58_release_returns`, `c58_debug`, `c68_numbers`, `c68_integers`, `c68_no_new_floats`, `c68_simplify`, `c68_derivative`, `c68_taylor`, `c68_exp_refuted`, `c14_symmetric`, `c14_returns`, `c14_not_finite`, `c15_error`, `c15_symmetry_refuted`, `c15_release_wrap_refuted`, `c16_from_f32_special`, `c62_prefix`, `c62_lower_works`, `c62_residual`, `c56_exponential`, `c56_exponential_residual`, `c56_quotient`, `c66_lossless`, `c85_second_order_panics`, `c85_second_order_error`, `c37_refuted_add`, `c37_add_otherwise`, `c37_mul`, `c40_sin_at_zero_ignores_argument`, `c44_never_bounded_fluctuation`, `c101_lossless`, `c101_finite`, `c61_more_attempts`, `c61_unique`, `c59_kinds`, `c72_output`, `c50_to_smart_num`, `c50_to_smart_num_same`, `c50_near`, `c07_unit_values`, `c49_to_rational`, `c49_to_rational_min`, `c49_fraction_from_u64`, `c49_fraction_from_i64`, `c49_to_rational_float`, `c49_to_rational_of_fraction`, `c49_expression_to_rational`, `c49_classification`, `c49_constants`, `c49_operator_equality`, `c49_stored_kinds`, `c50_derivative`, `c50_taylor`, `c50_substitute`, `c50_printable`, `c95_float`, `c95_nan`, `c95_nan_near`, `c95_nan_kept_refuted`, `c01_reduce_value`, `c01_reduce_never_panics`, `c01_reduce_lowest`, `c01_reduce_idempotent`, `c01_gcd_correct`, `c02_eq_numeric`, `c02_eq_equivalence`, `c03_new`, `c03_new_min`, `c03_new_positive_negative`, `c04_mul_exact`, `c04_div_exact`, `c04_mul_panics_iff`, `c04_div_panics_iff`, `c04_total_and_agree`, `c05_add_exact`, `c05_sub_exact`, `c05_exact_when_lossless`, `c06_add_silently_wrong_refuted`, `c06_sub_silently_wrong_refuted`, `c06_debug_exact_below_two63`, `c07_is_zero`, `c07_is_one`, `c07_is_pi_e`, `c07_floats_never_zero_one`, `c08_integer_arithmetic`, `c09_exact`, `c09_lossless_is_real`, `c10_identity`, `c10_identity_on_identity`, `c10_annihilator`, `c10_zero_minus`, `c11_div_by_zero_undefined`, `c11_div_by_zero_returns`, `c11_integer_by_zero`, `c11_undefined_is_contagious`, `c16_from_i64`, `c16_from_f64`, `c16_from_u64`, `c17_sign`, `c17_sign_integer`, `c17_sign_float`, `c17_sign_of_zero_refuted`, `c02_eq_contract`, `c06_debug_add`, `c06_debug_sub`, `c06_right_iff`, `c05_panics_iff`, `c11_release_never_panics`, `c11_f64_never_panics`, `c87_add`, `c87_sub`, `c87_mul`, `c87_div`, `c87_shortcuts`, `c82_bound_needed`, `c25_passes`, `c25_passes_tight`, `c25_derivative`, `c25_derivative_refuted`, `c25_taylor`, `c74_plugs_in`, `c74_zero_over_zero`, `c89_limit_is_substitution`, `c89_conditions_refuted`, `c55_residual`, `c71_num_aggregate`, `c71_derivative`, `c71_substitute`, `c71_taylor`, `c71_limit`, `c71_queries`, `c71_release_returns`, `c71_derivative_release_returns`, `c71_to_string_returns`, `c71_builders`, `c71_verbatim`, `c102_reading_unique`, `c21_wrong_rules`, `c22_wrong_rules`, `c29_builds`, `c70_release_ring`, `c70_integers_are_i64`, `c70_debug_ring`, `c70_debug_exact`, `c70_debug_field`, `c70_fraction_sum_refuted`, `c70_fraction_distributive_refuted`, `c70_lossless_sums`, `c96_release_returns`, `c96_debug`, `c96_builds_agree`, `c96_terminates`, `c96_history`, `c96_limit_panics`, `c96_renaming`, `c56_size`, `c56_depth`, `c56_aggregate_depth`, `c56_iterated`, `c56_residual`, `c56_quadratic`, `c57_aggregate`, `c57_substitute`, `c57_derivative`, `c57_taylor`, `c57_limit`, `c01_reduce_any`, `c12_comparisons`, `c12_constructors`, `c49_operator_order`, `c43_variable_text`, `c43_operation_text`, `c78_parts_first`, `c78_panics`, `c78_taylor`, `c78_subtraction_refuted`, `c79_series`, `c79_release`, `c79_release_refuted`, `c79_returns`, `c75_sub_is_add_neg`, `c75_int_min_refuted`, `c75_representation_refuted`, `c53_limit_terminates`, `c53_limit_outcome`, `c53_others_terminate`, `c54_zero_times_infinity_never_answered`, `c12_numbers`, `c12_fractions`, `c12_expressions`, `c12_formatting`, `c12_limit_stack`, `c18_builders`, `c18_operations`, `c18_entry_points`, `c19_release_returns`, `c19_debug`, `c23_size`, `c23_variables`, `c23_operators`, `c23_progress`, `c24_closed`, `c24_folded`, `c25_idempotent`, `c25_idempotent_refuted`, `c25_fixpoint_reached`, `c25_fixpoint_reached_release`, `c27_error_iff`, `c27_absent`, `c27_self`, `c27_occurs`, `c27_eliminates`, `c27_commute`, `c27_composition`, `c27_size`, `c27_count_zero`, `c28_error_iff`, `c28_only_error`, `c28_release_returns`, `c28_debug`, `c30_constant`, `c30_constant_release`, `c31_error_iff`, `c31_only_error`, `c31_shape`, `c31_factorial`, `c31_release_returns`, `c34_debug_never_returns`, `c34_debug_panics`, `c38_panics`, `c38_not_a_variable`, `c38_blocked`, `c98_aggregate`, `c98_substitute`, `c98_derivative`, `c98_cubic`, `c98_taylor`, `c98_taylor_exponential`, `c56_factorial`, `c56_superexponential`, `c98_taylor_factorial`, `c98_taylor_superexponential`, `c98_same_run`, `c98_limit`, `c86_add`, `c86_sub`, `c86_mul`, `c86_div`, `c86_neg`

## `ClassicalDedekindReals.sig_forall_dec`, `ClassicalDedekindReals.sig_not_dec`, `Classical_Prop.classic`, `FunctionalExtensionality.functional_extensionality_dep`

`c76_positive`, `c76_relative`, `c76_sums`, `c76_cancellation_refuted`, `c69_big_O`, `c69_unique`, `c77_composition`, `c77_linear`, `c77_parity`, `c43_refuted_subtraction`, `c43_refuted_power`, `c43_refuted_negative_literal`, `c43_refuted_names`, `c43_readable_value`, `c43_regroupable_value`, `c91_taylor`, `c91_remainder`, `c91_derivative`, `c91_simplify`, `c91_exponent_one_refuted`, `c92_simplify`, `c92_derivative`, `c92_taylor`, `c13_add`, `c13_sub`, `c13_mul`, `c13_div`, `c13_integer_conversion`, `c13_binary64`, `c14_reflexive`, `c14_sound`, `c14_complete`, `c15_f64`, `c15_integers`, `c16_from_f32`, `c46_to_f64_accuracy`, `c47_pi`, `c13_special`, `c15_exact`, `c84_simplify`, `c84_derivative`, `c84_taylor`, `c84_bound_needed`, `c60_derivative`, `c60_taylor`, `c60_simplify_first`, `c63_mixed_derivatives`, `c64_gradient`, `c65_chain_rule`, `c56_geometric`, `c56_logarithm`, `c56_logarithm_residual`, `c83_exact`, `c83_bound_needed`, `c66_simplify`, `c66_derivative`, `c66_derivative_powers`, `c66_nth_derivative`, `c66_taylor`, `c80_lowest_exists`, `c80_complete`, `c80_right`, `c80_zero_literal_refuted`, `c85_lowest_exists`, `c85_complete`, `c85_right`, `c36_add`, `c36_sub`, `c36_neg`, `c36_mul`, `c36_div`, `c36_refuted_mul_zero`, `c37_same_meaning`, `c39_limit_is_value`, `c39_value_is_limit`, `c39_limit_sound`, `c40_refuted_sin_at_zero`, `c40_sin_elsewhere`, `c45_refuted_infinity_times_zero`, `c45_refuted_division_by_hidden_zero`, `c45_refuted_cos_at_pi`, `c101_value`, `c101_limit_sound`, `c72_exp`, `c72_ln`, `c49_constants_value`, `c88_factor`, `c88_relative`, `c88_cancellation_refuted`, `c67_simplify`, `c67_integer_points`, `c67_closed`, `c67_closed_exact`, `c67_derivative`, `c67_nth_derivative`, `c34_release_beyond_65`, `c81_closed`, `c81_open`, `c82_simplify`, `c82_derivative`, `c82_taylor`, `c74_plugging_refuted`, `c74_answer_has_value`, `c74_every_pole_refuted`, `c55_exact`, `c100_taylor`, `c100_remainder`, `c100_derivative`, `c100_nth_derivative`, `c100_simplify`, `c100_monomial`, `c100_base_one_refuted`, `c90_taylor`, `c90_remainder`, `c90_geometric`, `c90_logarithm`, `c102_usual`, `c102_refuted`, `c102_taylor`, `c20_value_preserved`, `c20_no_power_no_cos`, `c21_refuted_zero_base`, `c21_refuted_one_base`, `c21_refuted_ln_base`, `c21_refuted_cos_pi`, `c21_refuted`, `c22_refuted_div`, `c22_refuted_exp_ln`, `c22_refuted`, `c26_semantic`, `c29_derivative_correct`, `c32_coefficients`, `c33_lagrange`, `c35_refuted_at_one`, `c35_refuted_at_zero`, `c35_refuted`, `c93_simplify`, `c93_derivative`, `c93_taylor`, `c93_size`, `c96_meaning`, `c96_integer_debug`, `c96_powers_refuted`, `c73_sum`, `c73_neg`, `c73_product`, `c73_quotient`, `c73_derivative`, `c35_constant_coefficient`, `c35_all_powers_refuted`, `c22_same_domain`, `c22_number_is_value`, `c22_guards_needed`, `c22_reciprocal_of_undefined`, `c104_derivative_domain`, `c104_same_domain`, `c104_refuted`, `c104_constants_refuted`, `c22_debug_integers`, `c104_quotient`, `c103_coefficient_defined`, `c103_constant_coefficient`, `c103_refuted`

## `ClassicalDedekindReals.sig_forall_dec`, `ClassicalDedekindReals.sig_not_dec`, `FunctionalExtensionality.functional_extensionality_dep`

`c47_e`

## `ClassicalDedekindReals.sig_forall_dec`, `FunctionalExtensionality.functional_extensionality_dep`

`c76_underflow_refuted`, `c92_relative`, `c13_neg`, `c46_double_rounding_refuted`, `c93_absolute`

