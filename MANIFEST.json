{"claims": [
{"property": "C01", "status": "proved", "theorems": ["C01_new_accepts_exactly_admissible"], "note": ""},
{"property": "C02", "status": "proved", "theorems": ["C02_reachable_values_are_admissible"], "note": ""},
{"property": "C03", "status": "proved", "theorems": ["C03_checked_add", "C03_checked_sub", "C03_checked_mul", "C03_checked_div", "C03_checked_pow"], "note": ""},
{"property": "C04", "status": "proved", "theorems": ["C04_try_from", "C04_from_str", "C04_into_f64"], "note": ""},
{"property": "C05", "status": "proved", "theorems": ["C05_display_parse_round_trip"], "note": ""},
{"property": "C06", "status": "partial", "theorems": ["C06_deserialize_serialize_partial", "C06_deserialized_values_are_admissible_refuted"], "note": "Round trip proved; the invariant part is false for derived Deserialize: refuted with a witness."},
{"property": "C07", "status": "proved", "theorems": ["C07_all_views_agree"], "note": ""},
{"property": "C08", "status": "proved", "theorems": ["C08_iterators_are_deques", "C08_as_slice_shows_the_rest"], "note": ""},
{"property": "C09", "status": "proved", "theorems": ["C09_node_rule_iterator"], "note": ""},
{"property": "C10", "status": "partial", "theorems": ["C10_legendre_degree", "C10_chebyshev1_degree", "C10_chebyshev2_degree", "C10_hermite_degree", "C10_laguerre_degree", "C10_jacobi_degree", "C10_max_degree_refuted"], "note": "Proved for every degree below usize::MAX; at usize::MAX degree+1 overflows and a release build returns an empty rule (refuted with a witness)."},
{"property": "C11", "status": "proved", "theorems": ["C11_legendre_never_panics", "C11_node_never_panics", "C11_chebyshev1_never_panics", "C11_chebyshev2_never_panics", "C11_hermite_never_panics", "C11_laguerre_never_panics", "C11_jacobi_never_panics", "C11_max_degree_refuted"], "note": "For every degree n with 2n <= usize::MAX (larger rules cannot be allocated); usize::MAX itself panics in debug builds (refuted with a witness)."},
{"property": "C12", "status": "partial", "theorems": ["C12_hermite_sorted", "C12_laguerre_sorted", "C12_jacobi_even_degree_sorted_partial", "C12_jacobi_odd_order_refuted", "C12_chebyshev1_double", "C12_chebyshev2_double", "C12_legendre_double", "C12_legendre_big_double"], "note": "Hermite and Laguerre fully, Jacobi for even degrees; odd Jacobi degrees refuted with a witness (alpha=42, beta=0, degree 3). Chebyshev: strict order proved in exact arithmetic (C31). Legendre: strict order proved in exact arithmetic for every degree (C42). Chebyshev and Legendre in double arithmetic: sorted by total_cmp for every degree up to 2^40 if the library cosine falls between 0 and pi (C12_*_double), and strictly (C73) up to millions of points for every accurate library."},
{"property": "C13", "status": "proved", "theorems": ["C13_midpoint_calls", "C13_trapezoid_calls", "C13_simpson_calls", "C13_midpoint_number_of_calls", "C13_trapezoid_number_of_calls", "C13_simpson_number_of_calls"], "note": ""},
{"property": "C14", "status": "proved", "theorems": ["C14_midpoint_exact_on_affine"], "note": ""},
{"property": "C15", "status": "proved", "theorems": ["C15_trapezoid_exact_on_affine"], "note": ""},
{"property": "C16", "status": "proved", "theorems": ["C16_simpson_exact_on_cubics"], "note": ""},
{"property": "C17", "status": "proved", "theorems": ["C17_midpoint_error_bound"], "note": ""},
{"property": "C18", "status": "proved", "theorems": ["C18_trapezoid_error_bound"], "note": ""},
{"property": "C19", "status": "proved", "theorems": ["C19_simpson_error_bound"], "note": ""},
{"property": "C20", "status": "proved", "theorems": ["C20_midpoint_converges_integrable", "C20_trapezoid_converges_integrable", "C20_simpson_converges_integrable", "C20_midpoint_converges", "C20_trapezoid_converges", "C20_simpson_converges"], "note": ""},
{"property": "C21", "status": "proved", "theorems": ["C21_gauss_linear", "C21_symmetric_gauss_antisymmetric", "C21_gauss_empty_interval", "C21_midpoint_linear", "C21_midpoint_antisymmetric", "C21_midpoint_empty_interval", "C21_trapezoid_linear", "C21_trapezoid_antisymmetric", "C21_trapezoid_empty_interval", "C21_simpson_linear", "C21_simpson_antisymmetric", "C21_simpson_empty_interval"], "note": ""},
{"property": "C22", "status": "proved", "theorems": ["C22_gauss_points_inside", "C22_midpoint_float", "C22_trapezoid_float", "C22_simpson_float", "C22_gauss_float", "C22_subnormal_refuted", "C22_overflow_refuted", "C22_narrow_refuted", "C22_midpoint_points_inside", "C22_trapezoid_points_inside", "C22_simpson_points_inside"], "note": "Exact arithmetic: all rules. Double arithmetic: proved for intervals that are neither subnormal nor close to overflow (Newton-Cotes) and for nodes clear of the end points (Gauss); refuted with witnesses outside of these conditions."},
{"property": "C23", "status": "proved", "theorems": ["C23_midpoint_degree_history", "C23_trapezoid_degree_history", "C23_simpson_degree_history"], "note": ""},
{"property": "C24", "status": "proved", "theorems": ["C24_legendre_calls", "C24_jacobi_calls", "C24_chebyshev1_calls", "C24_chebyshev2_calls", "C24_hermite_calls", "C24_laguerre_calls"], "note": ""},
{"property": "C25", "status": "proved", "theorems": ["C25_change_of_interval", "C25_change_of_interval_proper"], "note": ""},
{"property": "C26", "status": "proved", "theorems": ["C26_legendre_par_value", "C26_jacobi_par_value", "C26_chebyshev1_par_value", "C26_chebyshev2_par_value", "C26_hermite_par_value", "C26_laguerre_par_value", "C26_midpoint_par_value", "C26_trapezoid_par_value", "C26_simpson_par_value", "C26_legendre_par_calls", "C26_jacobi_par_calls", "C26_chebyshev1_par_calls", "C26_chebyshev2_par_calls", "C26_hermite_par_calls", "C26_laguerre_par_calls", "C26_midpoint_par_calls", "C26_trapezoid_par_calls", "C26_simpson_par_calls"], "note": ""},
{"property": "C27", "status": "proved", "theorems": ["C27_legendre_round", "C27_legendre_par_round", "C27_legendre_par_close", "C27_jacobi_round", "C27_jacobi_par_round", "C27_jacobi_par_close", "C27_chebyshev1_round", "C27_chebyshev1_par_round", "C27_chebyshev1_par_close", "C27_chebyshev2_round", "C27_chebyshev2_par_round", "C27_chebyshev2_par_close", "C27_hermite_round", "C27_hermite_par_round", "C27_hermite_par_close", "C27_laguerre_round", "C27_laguerre_par_round", "C27_laguerre_par_close", "C27_half_width", "C27_bound_size"], "note": ""},
{"property": "C28", "status": "proved", "theorems": ["C28_legendre_par_new", "C28_chebyshev1_par_new", "C28_chebyshev2_par_new"], "note": ""},
{"property": "C29", "status": "proved", "theorems": ["C29_chebyshev1_exact", "C29_chebyshev1_exact_on_interval"], "note": ""},
{"property": "C30", "status": "proved", "theorems": ["C30_chebyshev2_exact", "C30_chebyshev2_exact_on_interval"], "note": ""},
{"property": "C31", "status": "proved", "theorems": ["C31_chebyshev1_shape", "C31_chebyshev2_shape"], "note": ""},
{"property": "C32", "status": "proved", "theorems": ["C32_companion_matrix", "C32_companion_uses_only_these"], "note": ""},
{"property": "C33", "status": "proved", "theorems": ["C33_exact_on_polynomials", "C33_weights_sum_to_scale", "C33_weights_positive", "C33_nodes_distinct", "C33_returns_a_rule", "C33_exact_solver_exists"], "note": ""},
{"property": "C34", "status": "proved", "theorems": ["C34_hermite_exact"], "note": ""},
{"property": "C35", "status": "proved", "theorems": ["C35_laguerre_exact", "C35_gamma_integral_exists", "C35_laguerre_accurate"], "note": ""},
{"property": "C36", "status": "partial", "theorems": ["C36_jacobi_even_exact", "C36_jacobi_odd_symmetric_exact", "C36_jacobi_odd_defect", "C36_jacobi_odd_refuted", "C36_true_mass", "C36_jacobi_accurate"], "note": "Proved for even degrees, for odd degrees with alpha=beta, and for degree 1 (C39); for odd degrees with alpha<>beta the exact defect is proved and the property refuted with a witness. alpha+beta=-1 and the delegated pairs are treated elsewhere."},
{"property": "C37", "status": "partial", "theorems": ["C37_matrix_entry_refuted", "C37_matrix_entry_nan_family", "C37_large_parameters_refuted", "C37_matrix_entries_finite_partial", "C37_other_entries_finite_partial"], "note": "Refuted by witnesses (alpha=-0.25, beta=-0.75; alpha=beta=2^600). Proved: all matrix entries finite for parameters up to 2^200 with |alpha+beta+1| >= 2^-48 (all but two entries without that condition). The scale factor and the weights are finite in the ranges of C74 and C75 if the power function of the platform is accurate."},
{"property": "C38", "status": "proved", "theorems": ["C38_legendre_case", "C38_chebyshev1_case", "C38_chebyshev2_case", "C38_conversions", "C38_parameters_reported", "C38_parameters_kept", "C38_laguerre_alpha"], "note": ""},
{"property": "C39", "status": "proved", "theorems": ["C39_jacobi_degree_one", "C39_jacobi_degree_one_total", "C39_jacobi_degree_one_accurate"], "note": ""},
{"property": "C40", "status": "proved", "theorems": ["C40_hermite_symmetric_ascending", "C40_laguerre_inside", "C40_jacobi_inside"], "note": ""},
{"property": "C41", "status": "proved", "theorems": ["C41_mirror_angles", "C41_weights_palindrome", "C41_middle_node", "C41_symmetric"], "note": "Angles, weights and tabulated middle node in any arithmetic; symmetry in exact arithmetic for n <= 100 or even n (for odd n > 100 the middle node comes from the asymptotic expansion and is not exactly 0). For 2n <= usize::MAX."},
{"property": "C42", "status": "proved", "theorems": ["C42_ascending_inside_positive"], "note": "Exact arithmetic, 2n <= usize::MAX."},
{"property": "C43", "status": "proved", "theorems": ["C43_coefficients"], "note": "With the constant 1.5e-16 instead of 1e-14. Uses integer fixed-point checks of all tables, evaluated by the kernel (vm)."},
{"property": "C44", "status": "partial", "theorems": ["C44_reflection", "C44_one_half_refuted"], "note": "Proved for every non-integer x except 1/2, where it is refuted."},
{"property": "C45", "status": "proved", "theorems": ["C45_gamma_positive", "C45_gamma_negative", "C45_jacobi_scale_positive"], "note": ""},
{"property": "C46", "status": "proved", "theorems": ["C46_calls", "C46_value", "C46_single_count", "C46_count", "C46_products", "C46_exact", "C46_exact_rules", "C46_simpson_region", "C46_legendre_region", "C46_triangle"], "note": ""},
{"property": "C47", "status": "proved", "theorems": ["C47_newton_cotes_zero", "C47_newton_cotes_par_zero", "C47_gauss_zero", "C47_zero_or_nan", "C47_par_zero_or_nan"], "note": ""},
{"property": "C48", "status": "proved", "theorems": ["C48_pairs_equal", "C48_laguerre_equal", "C48_jacobi_equal", "C48_clone_equal_iff"], "note": ""},
{"property": "C49", "status": "proved", "theorems": ["C49_integrate_not_negative", "C49_par_integrate_not_negative", "C49_hermite_weights", "C49_chebyshev1_weights", "C49_chebyshev2_weights", "C49_laguerre_weights", "C49_legendre_weights", "C49_jacobi_weights", "C49_laguerre_weights_accurate"], "note": "Non-negativity of the stored weights is proved for Hermite and Chebyshev rules with any library, for Legendre rules up to 2^40 points with a library whose sine and cosine are accurate, for Laguerre rules with an accurate power function (alpha up to 167.9), and for Jacobi rules whose computed scale factors are not negative."},
{"property": "C50", "status": "proved", "theorems": ["C50_accuracy", "C50_accuracy_below_one_half", "C50_true_reflection", "C50_sixteen_digits_refuted"], "note": "Relative error at most 1.2e-13 for every argument at which Gamma is defined, exact arithmetic (no rounding, no overflow). The documented 16 digits are refuted at x=50."},
{"property": "C51", "status": "proved", "theorems": ["C51_parameter_order"], "note": ""},
{"property": "C52", "status": "proved", "theorems": ["C52_polynomials", "C52_integrands"], "note": "Exact arithmetic with the decimal table values; degrees up to 100."},
{"property": "C53", "status": "proved", "theorems": ["C53_midpoint_round", "C53_midpoint_par_round", "C53_trapezoid_round", "C53_trapezoid_par_round", "C53_simpson_round", "C53_simpson_par_round"], "note": ""},
{"property": "C54", "status": "proved", "theorems": ["C54_hermite_error", "C54_laguerre_error", "C54_jacobi_error", "C54_chebyshev1_error", "C54_chebyshev2_error", "C54_legendre_error"], "note": "Exact arithmetic, exact eigenvalue solver for Golub-Welsch rules; Jacobi: even degrees or alpha=beta (the other odd degrees are not Gauss rules, C36); Legendre: degrees up to 100, constant 20/2^(2n) instead of the optimal one."},
{"property": "C55", "status": "proved", "theorems": ["C55_chebyshev1_oscillation", "C55_chebyshev2_oscillation", "C55_jacobi_oscillation", "C55_legendre_oscillation", "C55_chebyshev1_converges", "C55_chebyshev2_converges", "C55_jacobi_converges"], "note": "Exact arithmetic; Jacobi: even degrees or alpha=beta, up to the relative error of the total mass; Legendre: degrees up to 100, error bound instead of a limit."},
{"property": "C56", "status": "proved", "theorems": ["C56_hermite_sharp", "C56_laguerre_sharp", "C56_jacobi_sharp", "C56_chebyshev1_sharp", "C56_chebyshev2_sharp"], "note": "Exact arithmetic; Jacobi: even degrees or alpha=beta. Legendre is not included: the tabulated nodes are rounded."},
{"property": "C57", "status": "proved", "theorems": ["C57_round_trip", "C57_accepted_legendre", "C57_accepted_chebyshev1", "C57_accepted_chebyshev2", "C57_accepted_hermite", "C57_accepted_laguerre", "C57_accepted_jacobi", "C57_accepted_newton_cotes", "C57_field_errors"], "note": "At the level of serde's data model; how a format writes numbers as text or bytes is not modelled."},
{"property": "C58", "status": "proved", "theorems": ["C58_bytes", "C58_zeroed_is_valid"], "note": ""},
{"property": "C59", "status": "proved", "theorems": ["C59_parse_errors", "C59_source_has_same_message", "C59_errors_equal"], "note": ""},
{"property": "C60", "status": "partial", "theorems": ["C60_newton_cotes_degree_valid_partial", "C60_deserialized_rules_are_valid_refuted", "C60_deserialized_parameters_are_valid_refuted"], "note": "Proved for the Newton-Cotes rules (NonZeroU32); refuted with witnesses for the node-weight rules, whose derived Deserialize does not validate."},
{"property": "C61", "status": "proved", "theorems": ["C61_simpson_is_a_combination", "C61_composite"], "note": ""},
{"property": "C62", "status": "proved", "theorems": ["C62_convex", "C62_monotone"], "note": ""},
{"property": "C63", "status": "proved", "theorems": ["C63_bounds_are_attained"], "note": ""},
{"property": "C64", "status": "proved", "theorems": ["C64_hermite_converges", "C64_laguerre_converges"], "note": "Exact arithmetic and exact eigenvalue solver; Laguerre up to the relative error of gamma (C50)."},
{"property": "C65", "status": "proved", "theorems": ["C65_value", "C65_converges", "C65_total_weight"], "note": "Exact arithmetic. The term 10^-15 is the effect of decimal constants in the asymptotic formulas."},
{"property": "C66", "status": "proved", "theorems": ["C66_hermite_inexact", "C66_laguerre_inexact", "C66_jacobi_inexact"], "note": "Exact arithmetic; Jacobi: even degrees (the middle node of odd degrees is overwritten, C36)."},
{"property": "C67", "status": "proved", "theorems": ["C67_hermite_rule", "C67_laguerre_rule", "C67_hermite_result", "C67_laguerre_result", "C67_jacobi_rule", "C67_jacobi_result"], "note": "Double arithmetic. The accuracy of the solver is a hypothesis; Laguerre and Jacobi are relative to the computed gamma value. Jacobi: even degree, alpha, beta and alpha+beta at least 10^-10 away from -1, because the matrix entries lose all digits near alpha + beta = -1 (C37) and the middle node of odd degrees is overwritten (C36)."},
{"property": "C68", "status": "proved", "theorems": ["C68_nan", "C68_nan_parallel", "C68_finite", "C68_finite_parallel", "C68_zeros"], "note": "Double arithmetic, all nine rules, sequential (stateful integrands) and parallel (every schedule): NaN among the values gives NaN, a finite result implies finite values, bounds and weights, zero values give the same signed zero in both."},
{"property": "C69", "status": "proved", "theorems": ["C69_midpoint", "C69_trapezoid", "C69_simpson", "C69_midpoint_integral", "C69_trapezoid_integral", "C69_simpson_integral"], "note": "Double arithmetic; degrees below 2^32 and intervals without underflow of the step (plain_interval), finite result."},
{"property": "C70", "status": "proved", "theorems": ["C70_chebyshev1", "C70_chebyshev2", "C70_legendre", "C70_legendre_big"], "note": "Double arithmetic with round to nearest; the accuracy of the library's sin and cos is a hypothesis (an instance exists)."},
{"property": "C71", "status": "proved", "theorems": ["C71_chebyshev1", "C71_chebyshev2", "C71_legendre", "C71_legendre_big", "C71_chebyshev1_integral", "C71_chebyshev2_integral", "C71_legendre_integral", "C71_legendre_any", "C71_legendre_big_integral"], "note": "Double arithmetic; pure integrands; finite result. Above degree 100 the Legendre truncation term is the Lipschitz one of C65."},
{"property": "C72", "status": "proved", "theorems": ["C72_legendre", "C72_legendre_par", "C72_jacobi", "C72_jacobi_par", "C72_chebyshev1", "C72_chebyshev1_par", "C72_chebyshev2", "C72_chebyshev2_par", "C72_hermite", "C72_hermite_par", "C72_laguerre", "C72_laguerre_par", "C72_midpoint", "C72_midpoint_par", "C72_trapezoid", "C72_trapezoid_par", "C72_simpson", "C72_simpson_par", "C72_midpoint_call", "C72_trapezoid_call", "C72_simpson_call", "C72_legendre_call", "C72_chebyshev1_call", "C72_chebyshev2_call"], "note": "for arbitrary rule contents of all nine rules in terms of the sizes of values and weights; for the Newton-Cotes, Legendre and Chebyshev rules as constructed in terms of the integrand alone; needs a size bound (counterexample beside the theorems)"},
{"property": "C73", "status": "proved", "theorems": ["C73_chebyshev1", "C73_chebyshev2", "C73_legendre", "C73_legendre_big", "C73_chebyshev1_large_degree_ends_in_ones", "C73_chebyshev2_large_degree_ends_in_ones", "C73_legendre_large_degree_ends_in_ones"], "note": "C73_chebyshev1, _chebyshev2, _legendre (up to 100 points), _legendre_big: separated nodes and total_cmp order; the _large_degree_ends_in_ones theorems show that a condition on the degree is needed."},
{"property": "C74", "status": "proved", "theorems": ["C74_gamma", "C74_gamma_negative", "C74_laguerre_scale", "C74_jacobi_scale", "C74_laguerre_rule", "C74_laguerre_result", "C74_jacobi_rule", "C74_jacobi_result"], "note": "C74_gamma, _gamma_negative, _laguerre_scale, _jacobi_scale, then _laguerre_rule/_result and _jacobi_rule/_result (the C67 bounds with the computed scale factor replaced by the true integral of the weight function)."},
{"property": "C75", "status": "partial", "theorems": ["C75_laguerre_weights_finite_partial", "C75_jacobi_weights_finite_partial", "C75_laguerre_weights_finite_refuted", "C75_jacobi_weights_finite_refuted"], "note": "C75_laguerre_weights_finite_partial and C75_jacobi_weights_finite_partial hold in the stated ranges; the general claim is false of the code: C75_laguerre_weights_finite_refuted (the power inside gamma overflows from about 169.76 on), C75_jacobi_weights_finite_refuted (the product of the numerator overflows before the division). Jacobi for every degree from 2 on. Missing: Laguerre parameters between 168.9 and 169.76 minus 1."},
{"property": "C76", "status": "proved", "theorems": ["C76_derivatives", "C76_continuous", "C76_gauss_rule", "C76_nodes_and_weights", "C76_total_weight", "C76_polynomials", "C76_integrands", "C76_same_as_gauss"], "note": "C76_nodes_and_weights against any rule satisfying gauss_rule (GaussRuleSpec.v), which exists and is unique by C76_gauss_rule; consequences C76_total_weight, C76_polynomials, C76_integrands, C76_same_as_gauss. Exact arithmetic: rounding is the subject of C70, C71."},
{"property": "C77", "status": "proved", "theorems": ["C77_nodes_and_weights", "C77_integrands", "C77_derivatives"], "note": "C77_nodes_and_weights combines C70_legendre_big and C76_nodes_and_weights; C77_integrands and C77_derivatives replace the O(1/n) truncation term of C71_legendre_big_integral. C76_derivatives and C76_continuous, also in Prop_BogFloat.v, are the statements in exact arithmetic."},
{"property": "C78", "status": "proved", "theorems": ["C78_tables", "C78_same_as_gauss", "C78_every_degree", "C78_doubles"], "note": "C78_tables is about the finitely many table entries, against the exact rule defined by its degree of exactness; C78_every_degree adds C76 for n > 100."},
{"property": "C79", "status": "proved", "theorems": ["C79_hermite", "C79_laguerre", "C79_jacobi", "C79_chebyshev1", "C79_chebyshev2", "C79_legendre", "C79_legendre_big"], "note": "Sharper than C54: one-sided bounds, and for Legendre the classical constant instead of the one from Chebyshev interpolation."},
{"property": "C80", "status": "proved", "theorems": ["C80_substitution", "C80_substitution_newton_cotes", "C80_exchanged_parameters", "C80_exchanged_values", "C80_equal_parameters"], "note": "The exchange law holds also for the odd degrees with a misplaced middle node (C36)."},
{"property": "C81", "status": "proved", "theorems": ["C81_chebyshev1", "C81_chebyshev2", "C81_jacobi", "C81_legendre", "C81_chebyshev_series", "C81_power_series"], "note": "Exact arithmetic; Jacobi: even degrees or alpha=beta, up to the relative error of the total mass; Legendre with the effect of the stored digits."},
{"property": "C82", "status": "proved", "theorems": ["C82_hermite", "C82_laguerre", "C82_jacobi", "C82_shortcut_chebyshev2", "C82_shortcut_legendre"], "note": "Exact arithmetic with an exact eigenvalue routine. Jacobi: alpha+beta <> -1. The pair (-1/2,-1/2), which is also delegated, has alpha+beta = -1, where the general formulas divide by zero (see C37), so there the shortcut is needed and not a shortcut."},
{"property": "C83", "status": "proved", "theorems": ["C83_integrate", "C83_par_integrate", "C83_minus", "C83_nested"], "note": "Doubles, any nodes and weights. The signs of zero results are not compared."},
{"property": "C84", "status": "proved", "theorems": ["C84_integrate", "C84_par_integrate", "C84_between", "C84_nested"], "note": "Doubles. C49 gives the hypothesis on the weights for the constructed rules."},
{"property": "C85", "status": "proved", "theorems": ["C85_hermite", "C85_laguerre", "C85_jacobi", "C85_chebyshev1", "C85_chebyshev2", "C85_legendre"], "note": "Exact arithmetic. Jacobi: even degrees or alpha = beta (for odd degrees with alpha <> beta see C36). Hermite, Laguerre and Jacobi bounds are in terms of the largest weight."},
{"property": "C86", "status": "proved", "theorems": ["C86_legendre", "C86_chebyshev1_is_midpoint", "C86_chebyshev2_is_trapezoid", "C86_chebyshev1", "C86_chebyshev2"], "note": "Exact arithmetic. The Chebyshev limits are stated as (b-a)/2 times the integral over the angle."},
{"property": "C87", "status": "proved", "theorems": ["C87_hermite", "C87_laguerre", "C87_hermite_blind", "C87_laguerre_blind"], "note": "Exact arithmetic, for every eigenvalue solver exact on the companion matrix."},
{"property": "C88", "status": "proved", "theorems": ["C88_newton_cotes", "C88_chebyshev1", "C88_chebyshev2", "C88_jacobi", "C88_legendre"], "note": "Exact arithmetic. Jacobi: even degrees or alpha = beta (C36)."},
{"property": "C89", "status": "proved", "theorems": ["C89_hermite", "C89_laguerre", "C89_jacobi", "C89_chebyshev1", "C89_chebyshev2", "C89_legendre", "C89_new_points"], "note": "Exact arithmetic. Jacobi: alpha = beta (for different parameters odd degrees are not Gauss rules, C36); Legendre: tabulated degrees."},
{"property": "C90", "status": "proved", "theorems": ["C90_values", "C90_values_par", "C90_points", "C90_variable", "C90_variable_par", "C90_underflow_limit"], "note": "Limits stated as powers of two (values 2^-v, weights 2^-w, outer factor 2^-h with v+w+h <= 900). C90_underflow_limit is the witness that a lower limit on the values is needed."},
{"property": "C91", "status": "proved", "theorems": ["C91_newton_cotes", "C91_legendre", "C91_chebyshev1", "C91_chebyshev2", "C91_jacobi", "C91_hermite", "C91_laguerre"], "note": "Exact arithmetic. Jacobi: even degrees or alpha = beta (C36)."},
{"property": "C92", "status": "proved", "theorems": ["C92_hermite", "C92_interval", "C92_midpoint_rounding_limit"], "note": "Exact arithmetic, with a double-arithmetic witness for what rounding does. Legendre rules of odd degree above 100 are not exactly symmetric (middle node computed, C41). Jacobi with delegated parameters is the Legendre or Chebyshev rule."},
{"property": "C93", "status": "proved", "theorems": ["C93_exact", "C93_limit", "C93_best_approximation", "C93_geometric"], "note": "Exact arithmetic; example: the Poisson kernel."},
{"property": "C94", "status": "proved", "theorems": ["C94_midpoint", "C94_trapezoid", "C94_simpson", "C94_midpoint_doubling", "C94_trapezoid_doubling", "C94_simpson_doubling"], "note": "Exact arithmetic."},
{"property": "C95", "status": "proved", "theorems": ["C95_converges", "C95_errors_add", "C95_legendre"], "note": "Exact arithmetic; any combination of Newton-Cotes rules, and Gauss-Legendre rules of more than 100 points."},
{"property": "C96", "status": "proved", "theorems": ["C96_rectangle", "C96_region"], "note": "Newton-Cotes rules in doubles; rectangles and regions between two graphs."},
{"property": "C97", "status": "proved", "theorems": ["C97_triangle", "C97_nested_triangle", "C97_exact", "C97_exact_nested"], "note": "Triangle inequality in doubles; Cauchy-Schwarz and Jensen in exact arithmetic."},
{"property": "C98", "status": "proved", "theorems": ["C98_hermite_converges", "C98_hermite_exponential", "C98_laguerre_converges", "C98_hermite_limit", "C98_laguerre_limit"], "note": "Exact arithmetic; extends C64 from polynomial growth to exp(c x^2), c < 1, for Hermite and exp(c x), c < 1, for Laguerre."},
{"property": "C99", "status": "proved", "theorems": ["C99_chebyshev1", "C99_chebyshev2", "C99_jacobi"], "note": "Exact arithmetic. Odd degrees with alpha <> beta are excluded because of the middle node (C36)."}
]}
