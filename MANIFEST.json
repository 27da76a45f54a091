{
 "claims": [
  {
   "property": "C01",
   "status": "proved",
   "theorems": [
    "c01_reduce_value",
    "c01_reduce_never_panics",
    "c01_reduce_lowest",
    "c01_reduce_idempotent",
    "c01_gcd_correct",
    "c01_reduce_any"
   ],
   "note": ""
  },
  {
   "property": "C02",
   "status": "proved",
   "theorems": [
    "c02_eq_numeric",
    "c02_eq_equivalence",
    "c02_eq_contract"
   ],
   "note": ""
  },
  {
   "property": "C03",
   "status": "proved",
   "theorems": [
    "c03_new",
    "c03_new_min",
    "c03_new_positive_negative"
   ],
   "note": ""
  },
  {
   "property": "C04",
   "status": "proved",
   "theorems": [
    "c04_mul_exact",
    "c04_div_exact",
    "c04_mul_panics_iff",
    "c04_div_panics_iff",
    "c04_total_and_agree"
   ],
   "note": ""
  },
  {
   "property": "C05",
   "status": "proved",
   "theorems": [
    "c05_add_exact",
    "c05_sub_exact",
    "c05_exact_when_lossless",
    "c05_panics_iff"
   ],
   "note": ""
  },
  {
   "property": "C06",
   "status": "proved",
   "theorems": [
    "c06_add_silently_wrong_refuted",
    "c06_sub_silently_wrong_refuted",
    "c06_debug_exact_below_two63",
    "c06_debug_add",
    "c06_debug_sub",
    "c06_right_iff"
   ],
   "note": "The property is false of the code: c06_*_refuted exhibit silently wrong debug sums/differences; c06_debug_exact_below_two63 is the strongest guarded version that holds."
  },
  {
   "property": "C07",
   "status": "proved",
   "theorems": [
    "c07_unit_values",
    "c07_is_zero",
    "c07_is_one",
    "c07_is_pi_e",
    "c07_floats_never_zero_one"
   ],
   "note": ""
  },
  {
   "property": "C08",
   "status": "proved",
   "theorems": [
    "c08_integer_arithmetic"
   ],
   "note": ""
  },
  {
   "property": "C09",
   "status": "proved",
   "theorems": [
    "c09_exact",
    "c09_lossless_is_real"
   ],
   "note": ""
  },
  {
   "property": "C10",
   "status": "proved",
   "theorems": [
    "c10_identity",
    "c10_identity_on_identity",
    "c10_annihilator",
    "c10_zero_minus"
   ],
   "note": ""
  },
  {
   "property": "C11",
   "status": "proved",
   "theorems": [
    "c11_undefined_divided",
    "c11_divided_by_undefined",
    "c11_div_by_zero_undefined",
    "c11_div_by_zero_returns",
    "c11_integer_by_zero",
    "c11_undefined_is_contagious",
    "c11_release_never_panics",
    "c11_f64_never_panics"
   ],
   "note": ""
  },
  {
   "property": "C12",
   "status": "proved",
   "theorems": [
    "c12_comparisons",
    "c12_constructors",
    "c12_numbers",
    "c12_fractions",
    "c12_expressions",
    "c12_formatting",
    "c12_limit_stack"
   ],
   "note": ""
  },
  {
   "property": "C13",
   "status": "proved",
   "theorems": [
    "c13_add",
    "c13_sub",
    "c13_mul",
    "c13_div",
    "c13_neg",
    "c13_integer_conversion",
    "c13_binary64",
    "c13_special"
   ],
   "note": "Reduced to IEEE round-to-nearest-even through Flocq's proofs about SpecFloat."
  },
  {
   "property": "C14",
   "status": "proved",
   "theorems": [
    "c14_symmetric",
    "c14_returns",
    "c14_reflexive",
    "c14_not_finite",
    "c14_sound",
    "c14_complete"
   ],
   "note": ""
  },
  {
   "property": "C15",
   "status": "proved",
   "theorems": [
    "c15_error",
    "c15_f64",
    "c15_integers",
    "c15_symmetry_refuted",
    "c15_release_wrap_refuted",
    "c15_exact"
   ],
   "note": "The symmetry part is false of the code (witness); soundness and completeness up to one f64 proved for f64 and in-range integer operands."
  },
  {
   "property": "C16",
   "status": "proved",
   "theorems": [
    "c16_from_f32",
    "c16_from_f32_special",
    "c16_from_i64",
    "c16_from_f64",
    "c16_from_u64"
   ],
   "note": ""
  },
  {
   "property": "C17",
   "status": "proved",
   "theorems": [
    "c17_sign",
    "c17_sign_integer",
    "c17_sign_float",
    "c17_sign_of_zero_refuted"
   ],
   "note": "Sign of nonzero numbers proved; the zero cases are refuted by witness."
  },
  {
   "property": "C18",
   "status": "proved",
   "theorems": [
    "c18_builders",
    "c18_operations",
    "c18_entry_points"
   ],
   "note": ""
  },
  {
   "property": "C19",
   "status": "proved",
   "theorems": [
    "c19_release_returns",
    "c19_debug"
   ],
   "note": ""
  },
  {
   "property": "C20",
   "status": "proved",
   "theorems": [
    "c20_value_preserved",
    "c20_no_power_no_cos"
   ],
   "note": "Proved for every well-formed expression under the stated guard (avoids_bad_rules) and for every expression without powers and cosines unconditionally; lossless run = Strict, which both builds then match."
  },
  {
   "property": "C21",
   "status": "proved",
   "theorems": [
    "c21_wrong_rules",
    "c21_refuted_zero_base",
    "c21_refuted_one_base",
    "c21_refuted_ln_base",
    "c21_refuted_cos_pi",
    "c21_refuted"
   ],
   "note": "The property is false of the code: refuted for 0^r, 1^r, ln(u)^r and cos(pi); c21_wrong_rules says what the rules do for all exponents."
  },
  {
   "property": "C22",
   "status": "proved",
   "theorems": [
    "c22_wrong_rules",
    "c22_refuted_div",
    "c22_refuted_exp_ln",
    "c22_refuted",
    "c22_same_domain",
    "c22_number_is_value",
    "c22_guards_needed",
    "c22_reciprocal_of_undefined",
    "c22_debug_integers"
   ],
   "note": "The property is false of the code (c22_refuted, c22_wrong_rules, c22_reciprocal_of_undefined); c22_same_domain and c22_number_is_value are the guarded version that holds for every expression and point, and c22_guards_needed shows that breaking a guard at the root gives a value to an expression without one. c22_debug_integers discharges the guards from the shape of the expression, for debug builds."
  },
  {
   "property": "C23",
   "status": "proved",
   "theorems": [
    "c23_size",
    "c23_variables",
    "c23_operators",
    "c23_progress"
   ],
   "note": ""
  },
  {
   "property": "C24",
   "status": "proved",
   "theorems": [
    "c24_closed",
    "c24_folded"
   ],
   "note": ""
  },
  {
   "property": "C25",
   "status": "proved",
   "theorems": [
    "c25_passes",
    "c25_passes_tight",
    "c25_derivative",
    "c25_derivative_refuted",
    "c25_taylor",
    "c25_idempotent",
    "c25_idempotent_refuted",
    "c25_fixpoint_reached",
    "c25_fixpoint_reached_release"
   ],
   "note": "Idempotence is false in general (witness 0-(-x)); proved without subtraction, and the fixpoint bound proved for all."
  },
  {
   "property": "C26",
   "status": "proved",
   "theorems": [
    "c26_semantic"
   ],
   "note": ""
  },
  {
   "property": "C27",
   "status": "proved",
   "theorems": [
    "c27_error_iff",
    "c27_absent",
    "c27_self",
    "c27_occurs",
    "c27_eliminates",
    "c27_commute",
    "c27_composition",
    "c27_size",
    "c27_count_zero"
   ],
   "note": ""
  },
  {
   "property": "C28",
   "status": "proved",
   "theorems": [
    "c28_error_iff",
    "c28_only_error",
    "c28_release_returns",
    "c28_debug"
   ],
   "note": ""
  },
  {
   "property": "C29",
   "status": "proved",
   "theorems": [
    "c29_derivative_correct",
    "c29_builds"
   ],
   "note": ""
  },
  {
   "property": "C30",
   "status": "proved",
   "theorems": [
    "c30_constant",
    "c30_constant_release"
   ],
   "note": ""
  },
  {
   "property": "C31",
   "status": "proved",
   "theorems": [
    "c31_error_iff",
    "c31_only_error",
    "c31_shape",
    "c31_factorial",
    "c31_release_returns"
   ],
   "note": ""
  },
  {
   "property": "C32",
   "status": "proved",
   "theorems": [
    "c32_coefficients"
   ],
   "note": ""
  },
  {
   "property": "C33",
   "status": "proved",
   "theorems": [
    "c33_lagrange"
   ],
   "note": ""
  },
  {
   "property": "C34",
   "status": "proved",
   "theorems": [
    "c34_release_beyond_65",
    "c34_debug_never_returns",
    "c34_debug_panics"
   ],
   "note": ""
  },
  {
   "property": "C35",
   "status": "proved",
   "theorems": [
    "c35_refuted_at_one",
    "c35_refuted_at_zero",
    "c35_refuted",
    "c35_constant_coefficient",
    "c35_all_powers_refuted"
   ],
   "note": "The property is false of the code: in a release build for every power x^k, k >= 2, at 0 and at 1 (c35_all_powers_refuted), and for every expansion of u^k where u simplifies to 0 or 1 (c35_constant_coefficient, both builds); C32 is the guarded version that holds."
  },
  {
   "property": "C36",
   "status": "proved",
   "theorems": [
    "c36_add",
    "c36_sub",
    "c36_neg",
    "c36_mul",
    "c36_div",
    "c36_refuted_mul_zero"
   ],
   "note": "Proved for every filter under the stated exception; the exception is shown necessary for * by witness."
  },
  {
   "property": "C37",
   "status": "proved",
   "theorems": [
    "c37_refuted_add",
    "c37_add_otherwise",
    "c37_mul",
    "c37_same_meaning"
   ],
   "note": "False of the code (Infinitesimal+Infinity); proved that this is the only exception and that * commutes."
  },
  {
   "property": "C38",
   "status": "proved",
   "theorems": [
    "c38_panics",
    "c38_not_a_variable",
    "c38_blocked"
   ],
   "note": ""
  },
  {
   "property": "C39",
   "status": "proved",
   "theorems": [
    "c39_limit_is_value",
    "c39_value_is_limit",
    "c39_limit_sound"
   ],
   "note": "Full soundness with L'Hopital proved from first principles; guards stated through the relation `asks`, shown satisfiable on sin(x)/x."
  },
  {
   "property": "C40",
   "status": "proved",
   "theorems": [
    "c40_refuted_sin_at_zero",
    "c40_sin_at_zero_ignores_argument",
    "c40_sin_elsewhere"
   ],
   "note": "False of the code at target 0 (witness sin(y)); proved correct at every other target."
  },
  {
   "property": "C41",
   "status": "proved",
   "theorems": [
    "c41_expression",
    "c41_built",
    "c41_number",
    "c41_results",
    "c41_limit_value",
    "c41_ill_formed"
   ],
   "note": "Also shows that hand-made operator nodes without operands do panic."
  },
  {
   "property": "C42",
   "status": "proved",
   "theorems": [
    "c42_reading_unique",
    "c42_exact",
    "c42_injective",
    "c42_integer",
    "c42_constants",
    "c42_float",
    "c42_float_rounding",
    "c42_nonfinite",
    "c42_fraction"
   ],
   "note": ""
  },
  {
   "property": "C43",
   "status": "proved",
   "theorems": [
    "c43_refuted_subtraction",
    "c43_refuted_power",
    "c43_refuted_negative_literal",
    "c43_refuted_names",
    "c43_unary",
    "c43_binary",
    "c43_balanced",
    "c43_readable",
    "c43_readable_value",
    "c43_regroupable_value",
    "c43_variable_text",
    "c43_operation_text"
   ],
   "note": "The property is false of the code: four witnesses; the readable fragment on which it holds is proved (lexing and parsing of the printed text are injective there)."
  },
  {
   "property": "C44",
   "status": "proved",
   "theorems": [
    "c44_never_bounded_fluctuation"
   ],
   "note": ""
  },
  {
   "property": "C45",
   "status": "proved",
   "theorems": [
    "c45_refuted_infinity_times_zero",
    "c45_refuted_division_by_hidden_zero",
    "c45_refuted_cos_at_pi"
   ],
   "note": "False of the code: three witnesses; C39 is the guarded version that holds."
  },
  {
   "property": "C46",
   "status": "proved",
   "theorems": [
    "c46_to_f64_accuracy",
    "c46_double_rounding_refuted"
   ],
   "note": "Nearest-f64 is false of the code (witness c46_double_rounding_refuted); relative error 2^-51 proved for all."
  },
  {
   "property": "C47",
   "status": "proved",
   "theorems": [
    "c47_pi",
    "c47_e"
   ],
   "note": ""
  },
  {
   "property": "C48",
   "status": "proved",
   "theorems": [
    "c48_text",
    "c48_returns"
   ],
   "note": ""
  },
  {
   "property": "C49",
   "status": "proved",
   "theorems": [
    "c49_to_rational",
    "c49_to_rational_min",
    "c49_fraction_from_u64",
    "c49_fraction_from_i64",
    "c49_to_rational_float",
    "c49_to_rational_of_fraction",
    "c49_expression_to_rational",
    "c49_classification",
    "c49_constants",
    "c49_constants_value",
    "c49_operator_equality",
    "c49_stored_kinds",
    "c49_operator_order"
   ],
   "note": ""
  },
  {
   "property": "C50",
   "status": "proved",
   "theorems": [
    "c50_to_smart_num",
    "c50_to_smart_num_same",
    "c50_near",
    "c50_derivative",
    "c50_taylor",
    "c50_substitute",
    "c50_printable"
   ],
   "note": ""
  },
  {
   "property": "C51",
   "status": "proved",
   "theorems": [
    "c51_add",
    "c51_mul",
    "c51_fractions",
    "c51_not_associative"
   ],
   "note": "full; c51_not_associative is a witness of the limit of the claim"
  },
  {
   "property": "C52",
   "status": "proved",
   "theorems": [
    "c52_sub_self",
    "c52_div_self",
    "c52_returns",
    "c52_neg_neg",
    "c52_neg_neg_constants",
    "c52_release_refuted"
   ],
   "note": "full; c52_release_refuted is a witness that release builds can return an undefined fraction"
  },
  {
   "property": "C53",
   "status": "proved",
   "theorems": [
    "c53_limit_terminates",
    "c53_limit_outcome",
    "c53_others_terminate"
   ],
   "note": "full: all well-formed trees; no axioms. Proof: measures on derivative chains (LimTerm..LimTerm4)."
  },
  {
   "property": "C54",
   "status": "proved",
   "theorems": [
    "c54_zero_times_infinity_never_answered"
   ],
   "note": "the expectation is false of the code; the theorem is the general negative statement, the Example shows x*(1/x)."
  },
  {
   "property": "C55",
   "status": "proved",
   "theorems": [
    "c55_residual",
    "c55_exact"
   ],
   "note": "residual: both builds, all points, no axioms; exactness: Strict run (so order <= 20), guard taylor_regular as in C32."
  },
  {
   "property": "C56",
   "status": "proved",
   "theorems": [
    "c56_exponential",
    "c56_exponential_residual",
    "c56_quotient",
    "c56_geometric",
    "c56_logarithm",
    "c56_logarithm_residual",
    "c56_size",
    "c56_depth",
    "c56_aggregate_depth",
    "c56_iterated",
    "c56_residual",
    "c56_quadratic",
    "c56_factorial",
    "c56_superexponential"
   ],
   "note": "full; with the matching lower bound for a family (c56_quadratic)."
  },
  {
   "property": "C57",
   "status": "proved",
   "theorems": [
    "c57_aggregate",
    "c57_substitute",
    "c57_derivative",
    "c57_taylor",
    "c57_limit"
   ],
   "note": "full, on all trees."
  },
  {
   "property": "C58",
   "status": "proved",
   "theorems": [
    "c58_release_returns",
    "c58_debug"
   ],
   "note": "full for the class `entire` of SpecLim2.v."
  },
  {
   "property": "C59",
   "status": "proved",
   "theorems": [
    "c59_kinds"
   ],
   "note": "full; the exception (variable names) is shown to be real by an Example."
  },
  {
   "property": "C60",
   "status": "proved",
   "theorems": [
    "c60_derivative",
    "c60_taylor",
    "c60_simplify_first"
   ],
   "note": "full under the regularity guards of C29/C32 (whose necessity is shown by C21/C35)."
  },
  {
   "property": "C61",
   "status": "proved",
   "theorems": [
    "c61_more_attempts",
    "c61_unique"
   ],
   "note": "full, on all trees and any stack depth."
  },
  {
   "property": "C62",
   "status": "proved",
   "theorems": [
    "c62_prefix",
    "c62_lower_works",
    "c62_residual"
   ],
   "note": "full."
  },
  {
   "property": "C63",
   "status": "proved",
   "theorems": [
    "c63_mixed_derivatives"
   ],
   "note": "full under the regularity guard of C29 for both variables."
  },
  {
   "property": "C64",
   "status": "proved",
   "theorems": [
    "c64_gradient"
   ],
   "note": "full under the regularity guard of C29 for every variable."
  },
  {
   "property": "C65",
   "status": "proved",
   "theorems": [
    "c65_chain_rule"
   ],
   "note": "full under the regularity guard of C29."
  },
  {
   "property": "C66",
   "status": "proved",
   "theorems": [
    "c66_lossless",
    "c66_simplify",
    "c66_derivative",
    "c66_derivative_powers",
    "c66_nth_derivative",
    "c66_taylor"
   ],
   "note": "full for the stated class; with powers under the condition of C29 on power bases (c66_derivative_powers)."
  },
  {
   "property": "C67",
   "status": "proved",
   "theorems": [
    "c67_simplify",
    "c67_integer_points",
    "c67_closed",
    "c67_closed_exact",
    "c67_derivative",
    "c67_nth_derivative"
   ],
   "note": "full for the stated class; division is excluded because its wrap-around is not modular."
  },
  {
   "property": "C68",
   "status": "proved",
   "theorems": [
    "c68_numbers",
    "c68_integers",
    "c68_no_new_floats",
    "c68_simplify",
    "c68_derivative",
    "c68_taylor",
    "c68_exp_refuted"
   ],
   "note": "full; the exception for exp is proved as c68_exp_refuted."
  },
  {
   "property": "C69",
   "status": "proved",
   "theorems": [
    "c69_big_O",
    "c69_unique"
   ],
   "note": "under the C32 condition (Strict run: no wrap-around, truncation or rounding; C66 gives it for integer expressions in debug builds)."
  },
  {
   "property": "C70",
   "status": "proved",
   "theorems": [
    "c70_release_ring",
    "c70_integers_are_i64",
    "c70_debug_ring",
    "c70_debug_exact",
    "c70_debug_field",
    "c70_fraction_sum_refuted",
    "c70_fraction_distributive_refuted",
    "c70_lossless_sums"
   ],
   "note": "full; the failure of the additive laws of fractions is proved as the two _refuted theorems."
  },
  {
   "property": "C71",
   "status": "proved",
   "theorems": [
    "c71_num_aggregate",
    "c71_derivative",
    "c71_substitute",
    "c71_taylor",
    "c71_limit",
    "c71_queries",
    "c71_release_returns",
    "c71_derivative_release_returns",
    "c71_to_string_returns",
    "c71_builders",
    "c71_verbatim"
   ],
   "note": "full; for stack exhaustion on very deep trees see C97."
  },
  {
   "property": "C72",
   "status": "proved",
   "theorems": [
    "c72_output",
    "c72_exp",
    "c72_ln"
   ],
   "note": "full; println! to a closed stdout is not modelled."
  },
  {
   "property": "C73",
   "status": "proved",
   "theorems": [
    "c73_sum",
    "c73_neg",
    "c73_product",
    "c73_quotient",
    "c73_derivative"
   ],
   "note": "under the C32 condition (Strict runs: no wrap-around, truncation or rounding)."
  },
  {
   "property": "C74",
   "status": "proved",
   "theorems": [
    "c74_plugs_in",
    "c74_zero_over_zero",
    "c74_plugging_refuted",
    "c74_answer_has_value",
    "c74_every_pole_refuted"
   ],
   "note": "full for +, *, / expressions; that the answer is the limit is refuted. c74_answer_has_value: the answer is defined exactly where the expression is; c74_every_pole_refuted: poles away from 0 are answered with a number that has no value."
  },
  {
   "property": "C75",
   "status": "proved",
   "theorems": [
    "c75_sub_is_add_neg",
    "c75_int_min_refuted",
    "c75_representation_refuted"
   ],
   "note": "full; both exceptions have witnesses."
  },
  {
   "property": "C76",
   "status": "proved",
   "theorems": [
    "c76_positive",
    "c76_relative",
    "c76_sums",
    "c76_underflow_refuted",
    "c76_cancellation_refuted"
   ],
   "note": "full; NaN payloads are not modelled."
  },
  {
   "property": "C77",
   "status": "proved",
   "theorems": [
    "c77_composition",
    "c77_linear",
    "c77_parity"
   ],
   "note": "under the C32 condition (Strict runs)."
  },
  {
   "property": "C78",
   "status": "proved",
   "theorems": [
    "c78_parts_first",
    "c78_panics",
    "c78_taylor",
    "c78_subtraction_refuted"
   ],
   "note": "full; the exclusion of subtractions is necessary (c78_subtraction_refuted)."
  },
  {
   "property": "C79",
   "status": "proved",
   "theorems": [
    "c79_series",
    "c79_release",
    "c79_release_refuted",
    "c79_returns"
   ],
   "note": "full."
  },
  {
   "property": "C80",
   "status": "proved",
   "theorems": [
    "c80_lowest_exists",
    "c80_complete",
    "c80_right",
    "c80_zero_literal_refuted"
   ],
   "note": "full for debug builds (a release build may wrap coefficients)."
  },
  {
   "property": "C81",
   "status": "proved",
   "theorems": [
    "c81_closed",
    "c81_open"
   ],
   "note": "full."
  },
  {
   "property": "C82",
   "status": "proved",
   "theorems": [
    "c82_simplify",
    "c82_derivative",
    "c82_taylor",
    "c82_bound_needed"
   ],
   "note": "full; sufficient bounds, with a witness that weight 2^63 already panics."
  },
  {
   "property": "C83",
   "status": "proved",
   "theorems": [
    "c83_exact",
    "c83_bound_needed"
   ],
   "note": "full; sufficient bound, with a witness above it."
  },
  {
   "property": "C84",
   "status": "proved",
   "theorems": [
    "c84_simplify",
    "c84_derivative",
    "c84_taylor",
    "c84_bound_needed"
   ],
   "note": "full; witnesses in the file (a harmonic sum, a rational function around 1/2)."
  },
  {
   "property": "C85",
   "status": "proved",
   "theorems": [
    "c85_lowest_exists",
    "c85_complete",
    "c85_right",
    "c85_second_order_panics",
    "c85_second_order_error"
   ],
   "note": "full; the failure for two derivatives is proved too."
  },
  {
   "property": "C86",
   "status": "proved",
   "theorems": [
    "c86_add",
    "c86_sub",
    "c86_mul",
    "c86_div",
    "c86_neg"
   ],
   "note": "full."
  },
  {
   "property": "C87",
   "status": "proved",
   "theorems": [
    "c87_add",
    "c87_sub",
    "c87_mul",
    "c87_div",
    "c87_shortcuts"
   ],
   "note": "full."
  },
  {
   "property": "C88",
   "status": "proved",
   "theorems": [
    "c88_factor",
    "c88_relative",
    "c88_cancellation_refuted"
   ],
   "note": "full; the cancelling case is refuted by a witness."
  },
  {
   "property": "C89",
   "status": "proved",
   "theorems": [
    "c89_limit_is_substitution",
    "c89_conditions_refuted"
   ],
   "note": "full; the conditions are shown necessary by c89_conditions_refuted."
  },
  {
   "property": "C90",
   "status": "proved",
   "theorems": [
    "c90_taylor",
    "c90_remainder",
    "c90_geometric",
    "c90_logarithm"
   ],
   "note": "full for debug builds (overflow panics); release builds are covered by C33/C34 under their range conditions."
  },
  {
   "property": "C91",
   "status": "proved",
   "theorems": [
    "c91_taylor",
    "c91_remainder",
    "c91_derivative",
    "c91_simplify",
    "c91_exponent_one_refuted"
   ],
   "note": "full; extends C66 and C90; the condition is shown necessary by c91_exponent_one_refuted."
  },
  {
   "property": "C92",
   "status": "proved",
   "theorems": [
    "c92_simplify",
    "c92_derivative",
    "c92_taylor",
    "c92_relative"
   ],
   "note": "full for the class stated (no subtraction or division: there cancellation makes a relative bound false)."
  },
  {
   "property": "C93",
   "status": "proved",
   "theorems": [
    "c93_simplify",
    "c93_derivative",
    "c93_taylor",
    "c93_absolute",
    "c93_size"
   ],
   "note": "full for the class stated (no division or powers)."
  },
  {
   "property": "C94",
   "status": "proved",
   "theorems": [
    "c94_aggregate",
    "c94_substitute",
    "c94_derivative",
    "c94_taylor",
    "c94_limit",
    "c94_integers",
    "c94_functions",
    "c94_conversions",
    "c94_references"
   ],
   "note": "full."
  },
  {
   "property": "C95",
   "status": "proved",
   "theorems": [
    "c95_float",
    "c95_nan",
    "c95_nan_near",
    "c95_nan_kept_refuted"
   ],
   "note": "full; \"NaN always survives\" refuted with a witness."
  },
  {
   "property": "C96",
   "status": "proved",
   "theorems": [
    "c96_release_returns",
    "c96_debug",
    "c96_builds_agree",
    "c96_terminates",
    "c96_history",
    "c96_meaning",
    "c96_integer_debug",
    "c96_powers_refuted",
    "c96_limit_panics",
    "c96_renaming"
   ],
   "note": "full; powers refuted with a witness (C21)."
  },
  {
   "property": "C97",
   "status": "proved",
   "theorems": [
    "c97_clone",
    "c97_substitute",
    "c97_substitute_result",
    "c97_aggregate",
    "c97_derivative_result",
    "c97_derivative",
    "c97_taylor",
    "c97_quadratic",
    "c97_display",
    "c97_all_or_nothing",
    "c97_limit",
    "c97_limit_entire"
   ],
   "note": "full; for limit the explicit bound covers the class of C58 only (elsewhere: some bound exists); the size of a stack frame in bytes is not modelled."
  },
  {
   "property": "C98",
   "status": "proved",
   "theorems": [
    "c98_aggregate",
    "c98_substitute",
    "c98_derivative",
    "c98_cubic",
    "c98_taylor",
    "c98_taylor_exponential",
    "c98_taylor_factorial",
    "c98_taylor_superexponential",
    "c98_same_run",
    "c98_limit"
   ],
   "note": "full; the time of clone and of the arithmetic itself is not counted; limit is not covered."
  },
  {
   "property": "C99",
   "status": "proved",
   "theorems": [
    "c99_number",
    "c99_expression",
    "c99_limit",
    "c99_taylor",
    "c99_derivative",
    "c99_number_pretty",
    "c99_expression_pretty",
    "c99_limit_pretty",
    "c99_taylor_pretty",
    "c99_derivative_pretty"
   ],
   "note": "full for ASCII names; the text core::fmt prints for an f64 is a parameter with two stated properties, not modelled."
  },
  {
   "property": "C100",
   "status": "proved",
   "theorems": [
    "c100_taylor",
    "c100_remainder",
    "c100_derivative",
    "c100_nth_derivative",
    "c100_simplify",
    "c100_monomial",
    "c100_base_one_refuted"
   ],
   "note": "All expressions, valuations and orders of the class; conditional on the debug build returning."
  },
  {
   "property": "C101",
   "status": "proved",
   "theorems": [
    "c101_lossless",
    "c101_value",
    "c101_limit_sound",
    "c101_finite"
   ],
   "note": "All expressions of the class; conditional on the debug build returning. (2) under quotient_regular, stated on the quotients actually met."
  },
  {
   "property": "C102",
   "status": "proved",
   "theorems": [
    "c102_usual",
    "c102_reading_unique",
    "c102_refuted",
    "c102_taylor"
   ],
   "note": "c102_usual for all expressions of the usual form; c102_reading_unique: the grammar is unambiguous; c102_taylor: printed expansions; c102_refuted: eleven misprinted expressions and an unreadable one."
  },
  {
   "property": "C103",
   "status": "proved",
   "theorems": [
    "c103_coefficient_defined",
    "c103_constant_coefficient",
    "c103_refuted"
   ],
   "note": "c103_refuted is for every integer point k <= 0 and order; c103_coefficient_defined is the guarded version."
  },
  {
   "property": "C104",
   "status": "proved",
   "theorems": [
    "c104_derivative_domain",
    "c104_same_domain",
    "c104_refuted",
    "c104_constants_refuted",
    "c104_quotient"
   ],
   "note": "c104_derivative_domain and c104_same_domain are the guarded versions; c104_refuted (ln x at every a < 0) and c104_constants_refuted show that the guards are needed. c104_quotient discharges the guards for quotients of trigonometric integer polynomials in debug builds."
  }
 ]
}