# What `Print Assumptions` lists for each property theorem

Generated by tools/assumptions.py. All entries are from the Coq standard library (classical reals, functional extensionality, excluded middle, primitive 63-bit integers).

* **A**: `classic`, `functional_extensionality_dep`, `sig_forall_dec`, `sig_not_dec`
* **B**: nothing (closed under the global context)
* **C**: `PrimInt63.add`, `PrimInt63.eqb`, `PrimInt63.int`, `PrimInt63.land`, `PrimInt63.leb`, `PrimInt63.lor`, `PrimInt63.lsl`, `PrimInt63.lsr`, `PrimInt63.ltb`, `PrimInt63.mulc`, `PrimInt63.sub`, `Uint63.add_spec`, `Uint63.eqb_correct`, `Uint63.eqb_refl`, `Uint63.leb_spec`, `Uint63.lor_spec`, `Uint63.lsl_spec`, `Uint63.lsr_spec`, `Uint63.ltb_spec`, `Uint63.mulc_spec`, `Uint63.of_to_Z`, `Uint63.sub_spec`, `classic`, `functional_extensionality_dep`, `sig_forall_dec`, `sig_not_dec`
* **D**: `functional_extensionality_dep`, `sig_forall_dec`, `sig_not_dec`
* **E**: `functional_extensionality_dep`, `sig_forall_dec`

## Prop_BogFloat.v

* `C76_derivatives`: A
* `C76_continuous`: A
* `C77_nodes_and_weights`: A
* `C77_integrands`: A
* `C77_derivatives`: A

## Prop_Bogaert.v

* `C76_gauss_rule`: A
* `C76_nodes_and_weights`: A
* `C76_total_weight`: A
* `C76_polynomials`: A
* `C76_integrands`: A
* `C76_same_as_gauss`: A

## Prop_Build.v

* `C10_legendre_degree`: B
* `C10_chebyshev1_degree`: B
* `C10_chebyshev2_degree`: B
* `C10_hermite_degree`: B
* `C10_laguerre_degree`: B
* `C10_jacobi_degree`: B
* `C10_max_degree_refuted`: B
* `C11_legendre_never_panics`: B
* `C11_node_never_panics`: B
* `C11_chebyshev1_never_panics`: B
* `C11_chebyshev2_never_panics`: B
* `C11_hermite_never_panics`: B
* `C11_laguerre_never_panics`: B
* `C11_jacobi_never_panics`: B
* `C11_max_degree_refuted`: B
* `C12_hermite_sorted`: B
* `C12_laguerre_sorted`: B
* `C12_jacobi_even_degree_sorted_partial`: B
* `C32_companion_matrix`: B
* `C32_companion_uses_only_these`: B

## Prop_Chebyshev.v

* `C25_change_of_interval`: A
* `C25_change_of_interval_proper`: A
* `C29_chebyshev1_exact`: A
* `C29_chebyshev1_exact_on_interval`: A
* `C30_chebyshev2_exact`: A
* `C30_chebyshev2_exact_on_interval`: A
* `C31_chebyshev1_shape`: A
* `C31_chebyshev2_shape`: A

## Prop_Converge.v

* `C64_hermite_converges`: A
* `C64_laguerre_converges`: A

## Prop_Data.v

* `C07_all_views_agree`: B
* `C08_iterators_are_deques`: B
* `C08_as_slice_shows_the_rest`: B
* `C09_node_rule_iterator`: A
* `C13_midpoint_calls`: B
* `C13_trapezoid_calls`: B
* `C13_simpson_calls`: B
* `C23_midpoint_degree_history`: B
* `C23_trapezoid_degree_history`: B
* `C23_simpson_degree_history`: B

## Prop_Delegate.v

* `C82_hermite`: A
* `C82_laguerre`: A
* `C82_jacobi`: A
* `C82_shortcut_chebyshev2`: A
* `C82_shortcut_legendre`: C

## Prop_Double.v

* `C95_converges`: A
* `C95_errors_add`: A
* `C95_legendre`: A

## Prop_DoubleFloat.v

* `C96_rectangle`: A
* `C96_region`: A

## Prop_Error.v

* `C54_hermite_error`: A
* `C54_laguerre_error`: A
* `C54_jacobi_error`: A
* `C54_chebyshev1_error`: A
* `C54_chebyshev2_error`: A
* `C54_legendre_error`: C
* `C55_chebyshev1_oscillation`: A
* `C55_chebyshev2_oscillation`: A
* `C55_jacobi_oscillation`: A
* `C55_legendre_oscillation`: C
* `C55_chebyshev1_converges`: A
* `C55_chebyshev2_converges`: A
* `C55_jacobi_converges`: A
* `C56_hermite_sharp`: A
* `C56_laguerre_sharp`: A
* `C56_jacobi_sharp`: A
* `C56_chebyshev1_sharp`: A
* `C56_chebyshev2_sharp`: A

## Prop_Exact.v

* `C34_hermite_exact`: A
* `C35_laguerre_exact`: A
* `C35_gamma_integral_exists`: A
* `C36_jacobi_even_exact`: A
* `C36_jacobi_odd_symmetric_exact`: A
* `C36_jacobi_odd_defect`: A
* `C36_jacobi_odd_refuted`: A
* `C39_jacobi_degree_one`: A
* `C39_jacobi_degree_one_total`: A
* `C40_hermite_symmetric_ascending`: A
* `C40_laguerre_inside`: A
* `C40_jacobi_inside`: A
* `C12_jacobi_odd_order_refuted`: A

## Prop_Exc.v

* `C68_nan`: A
* `C68_nan_parallel`: A
* `C68_finite`: A
* `C68_finite_parallel`: A
* `C68_zeros`: A

## Prop_ExpConv.v

* `C98_hermite_converges`: A
* `C98_hermite_exponential`: A
* `C98_laguerre_converges`: A
* `C98_hermite_limit`: D
* `C98_laguerre_limit`: A

## Prop_Finite.v

* `C72_legendre`: A
* `C72_legendre_par`: A
* `C72_jacobi`: A
* `C72_jacobi_par`: A
* `C72_chebyshev1`: A
* `C72_chebyshev1_par`: A
* `C72_chebyshev2`: A
* `C72_chebyshev2_par`: A
* `C72_hermite`: A
* `C72_hermite_par`: A
* `C72_laguerre`: A
* `C72_laguerre_par`: A
* `C72_midpoint`: A
* `C72_midpoint_par`: A
* `C72_trapezoid`: A
* `C72_trapezoid_par`: A
* `C72_simpson`: A
* `C72_simpson_par`: A
* `C72_midpoint_call`: A
* `C72_trapezoid_call`: A
* `C72_simpson_call`: A
* `C72_legendre_call`: C
* `C72_chebyshev1_call`: A
* `C72_chebyshev2_call`: A

## Prop_Float.v

* `C37_matrix_entry_refuted`: A
* `C37_matrix_entry_nan_family`: A
* `C37_large_parameters_refuted`: A
* `C37_matrix_entries_finite_partial`: A
* `C37_other_entries_finite_partial`: A
* `C38_legendre_case`: A
* `C38_chebyshev1_case`: A
* `C38_chebyshev2_case`: A
* `C38_conversions`: A
* `C38_parameters_reported`: A
* `C38_parameters_kept`: A
* `C38_laguerre_alpha`: B
* `C47_newton_cotes_zero`: A
* `C47_newton_cotes_par_zero`: A
* `C47_gauss_zero`: A
* `C47_zero_or_nan`: A
* `C47_par_zero_or_nan`: A
* `C48_pairs_equal`: A
* `C48_laguerre_equal`: A
* `C48_jacobi_equal`: A
* `C48_clone_equal_iff`: A
* `C49_integrate_not_negative`: A
* `C49_par_integrate_not_negative`: A
* `C49_hermite_weights`: A
* `C49_chebyshev1_weights`: A
* `C49_chebyshev2_weights`: A
* `C49_laguerre_weights`: A
* `C51_parameter_order`: A

## Prop_GamFloat.v

* `C74_gamma`: A
* `C74_gamma_negative`: A
* `C74_laguerre_scale`: A
* `C74_jacobi_scale`: A
* `C74_laguerre_rule`: A
* `C74_laguerre_result`: A
* `C74_jacobi_rule`: A
* `C74_jacobi_result`: A
* `C75_laguerre_weights_finite_partial`: A
* `C75_jacobi_weights_finite_partial`: A
* `C75_laguerre_weights_finite_refuted`: A
* `C75_jacobi_weights_finite_refuted`: A

## Prop_Gamma.v

* `C44_reflection`: A
* `C44_one_half_refuted`: A
* `C45_gamma_positive`: A
* `C45_gamma_negative`: A
* `C45_jacobi_scale_positive`: A

## Prop_GammaAcc.v

* `C50_accuracy`: A
* `C50_accuracy_below_one_half`: A
* `C50_true_reflection`: A
* `C50_sixteen_digits_refuted`: A
* `C35_laguerre_accurate`: A
* `C36_true_mass`: A
* `C36_jacobi_accurate`: A
* `C39_jacobi_degree_one_accurate`: A

## Prop_Gauss.v

* `C24_legendre_calls`: B
* `C24_jacobi_calls`: B
* `C24_chebyshev1_calls`: B
* `C24_chebyshev2_calls`: B
* `C24_hermite_calls`: B
* `C24_laguerre_calls`: B
* `C21_gauss_linear`: A
* `C21_symmetric_gauss_antisymmetric`: A
* `C21_gauss_empty_interval`: A
* `C22_gauss_points_inside`: A
* `C26_legendre_par_value`: A
* `C26_jacobi_par_value`: A
* `C26_chebyshev1_par_value`: A
* `C26_chebyshev2_par_value`: A
* `C26_hermite_par_value`: A
* `C26_laguerre_par_value`: A
* `C26_midpoint_par_value`: A
* `C26_trapezoid_par_value`: A
* `C26_simpson_par_value`: A
* `C26_legendre_par_calls`: B
* `C26_jacobi_par_calls`: B
* `C26_chebyshev1_par_calls`: B
* `C26_chebyshev2_par_calls`: B
* `C26_hermite_par_calls`: B
* `C26_laguerre_par_calls`: B
* `C26_midpoint_par_calls`: B
* `C26_trapezoid_par_calls`: B
* `C26_simpson_par_calls`: B
* `C28_legendre_par_new`: B
* `C28_chebyshev1_par_new`: B
* `C28_chebyshev2_par_new`: B

## Prop_Geometric.v

* `C81_chebyshev1`: A
* `C81_chebyshev2`: A
* `C81_jacobi`: A
* `C81_legendre`: C
* `C81_chebyshev_series`: A
* `C81_power_series`: E

## Prop_GolubWelsch.v

* `C33_exact_on_polynomials`: A
* `C33_weights_sum_to_scale`: A
* `C33_weights_positive`: A
* `C33_nodes_distinct`: A
* `C33_returns_a_rule`: A
* `C33_exact_solver_exists`: A

## Prop_Ineq.v

* `C97_triangle`: A
* `C97_nested_triangle`: A
* `C97_exact`: A
* `C97_exact_nested`: A

## Prop_Inexact.v

* `C66_hermite_inexact`: A
* `C66_laguerre_inexact`: A
* `C66_jacobi_inexact`: A
* `C67_hermite_rule`: A
* `C67_laguerre_rule`: A
* `C67_hermite_result`: A
* `C67_laguerre_result`: A

## Prop_Inside.v

* `C22_midpoint_float`: A
* `C22_trapezoid_float`: A
* `C22_simpson_float`: A
* `C22_gauss_float`: A
* `C22_subnormal_refuted`: A
* `C22_overflow_refuted`: A
* `C22_narrow_refuted`: A

## Prop_Interlace.v

* `C89_hermite`: A
* `C89_laguerre`: A
* `C89_jacobi`: A
* `C89_chebyshev1`: A
* `C89_chebyshev2`: A
* `C89_legendre`: A
* `C89_new_points`: E

## Prop_JacFloat.v

* `C67_jacobi_rule`: A
* `C67_jacobi_result`: A

## Prop_Lead.v

* `C94_midpoint`: A
* `C94_trapezoid`: A
* `C94_simpson`: A
* `C94_midpoint_doubling`: A
* `C94_trapezoid_doubling`: A
* `C94_simpson_doubling`: A

## Prop_LegBig.v

* `C65_value`: A
* `C65_converges`: A
* `C65_total_weight`: A

## Prop_LegExact.v

* `C43_coefficients`: C
* `C52_polynomials`: C
* `C52_integrands`: C

## Prop_LegTable.v

* `C78_tables`: C
* `C78_same_as_gauss`: C
* `C78_every_degree`: C
* `C78_doubles`: C

## Prop_Legendre.v

* `C41_mirror_angles`: B
* `C41_weights_palindrome`: B
* `C41_middle_node`: B
* `C41_symmetric`: A
* `C42_ascending_inside_positive`: A

## Prop_Lip.v

* `C88_newton_cotes`: A
* `C88_chebyshev1`: A
* `C88_chebyshev2`: A
* `C88_jacobi`: A
* `C88_legendre`: C

## Prop_Mirror.v

* `C80_substitution`: A
* `C80_substitution_newton_cotes`: A
* `C80_exchanged_parameters`: A
* `C80_exchanged_values`: A
* `C80_equal_parameters`: A

## Prop_Mono.v

* `C85_hermite`: A
* `C85_laguerre`: A
* `C85_jacobi`: A
* `C85_chebyshev1`: A
* `C85_chebyshev2`: A
* `C85_legendre`: C

## Prop_NCFloat.v

* `C69_midpoint`: A
* `C69_trapezoid`: A
* `C69_simpson`: A
* `C69_midpoint_integral`: A
* `C69_trapezoid_integral`: A
* `C69_simpson_integral`: A

## Prop_NCMore.v

* `C20_midpoint_converges_integrable`: A
* `C20_trapezoid_converges_integrable`: A
* `C20_simpson_converges_integrable`: A
* `C61_simpson_is_a_combination`: A
* `C61_composite`: A
* `C62_convex`: A
* `C62_monotone`: A
* `C63_bounds_are_attained`: A

## Prop_Nest.v

* `C46_calls`: B
* `C46_value`: B
* `C46_single_count`: B
* `C46_count`: B
* `C46_products`: A
* `C46_exact`: A
* `C46_exact_rules`: A
* `C46_simpson_region`: A
* `C46_legendre_region`: C
* `C46_triangle`: C

## Prop_NewtonCotes.v

* `C13_midpoint_number_of_calls`: B
* `C13_trapezoid_number_of_calls`: B
* `C13_simpson_number_of_calls`: B
* `C14_midpoint_exact_on_affine`: A
* `C15_trapezoid_exact_on_affine`: A
* `C16_simpson_exact_on_cubics`: A
* `C17_midpoint_error_bound`: A
* `C18_trapezoid_error_bound`: A
* `C19_simpson_error_bound`: A
* `C20_midpoint_converges`: A
* `C20_trapezoid_converges`: A
* `C20_simpson_converges`: A
* `C21_midpoint_linear`: A
* `C21_midpoint_antisymmetric`: A
* `C21_midpoint_empty_interval`: A
* `C21_trapezoid_linear`: A
* `C21_trapezoid_antisymmetric`: A
* `C21_trapezoid_empty_interval`: A
* `C21_simpson_linear`: A
* `C21_simpson_antisymmetric`: A
* `C21_simpson_empty_interval`: A
* `C22_midpoint_points_inside`: A
* `C22_trapezoid_points_inside`: A
* `C22_simpson_points_inside`: A

## Prop_Order.v

* `C83_integrate`: A
* `C83_par_integrate`: A
* `C83_minus`: A
* `C83_nested`: A
* `C84_integrate`: A
* `C84_par_integrate`: A
* `C84_between`: A
* `C84_nested`: A

## Prop_Param.v

* `C01_new_accepts_exactly_admissible`: A
* `C02_reachable_values_are_admissible`: A
* `C03_checked_add`: A
* `C03_checked_sub`: A
* `C03_checked_mul`: A
* `C03_checked_div`: A
* `C03_checked_pow`: A
* `C04_try_from`: A
* `C04_from_str`: A
* `C04_into_f64`: A
* `C05_display_parse_round_trip`: A
* `C06_deserialize_serialize_partial`: A
* `C06_deserialized_values_are_admissible_refuted`: A

## Prop_Parity.v

* `C92_hermite`: A
* `C92_interval`: A
* `C92_midpoint_rounding_limit`: A

## Prop_Periodic.v

* `C93_exact`: A
* `C93_limit`: A
* `C93_best_approximation`: A
* `C93_geometric`: A

## Prop_Range.v

* `C87_hermite`: A
* `C87_laguerre`: A
* `C87_hermite_blind`: A
* `C87_laguerre_blind`: A

## Prop_Riemann.v

* `C86_legendre`: C
* `C86_chebyshev1_is_midpoint`: A
* `C86_chebyshev2_is_trapezoid`: A
* `C86_chebyshev1`: A
* `C86_chebyshev2`: A

## Prop_Round.v

* `C27_legendre_round`: A
* `C27_legendre_par_round`: A
* `C27_legendre_par_close`: A
* `C27_jacobi_round`: A
* `C27_jacobi_par_round`: A
* `C27_jacobi_par_close`: A
* `C27_chebyshev1_round`: A
* `C27_chebyshev1_par_round`: A
* `C27_chebyshev1_par_close`: A
* `C27_chebyshev2_round`: A
* `C27_chebyshev2_par_round`: A
* `C27_chebyshev2_par_close`: A
* `C27_hermite_round`: A
* `C27_hermite_par_round`: A
* `C27_hermite_par_close`: A
* `C27_laguerre_round`: A
* `C27_laguerre_par_round`: A
* `C27_laguerre_par_close`: A
* `C27_half_width`: A
* `C27_bound_size`: E
* `C53_midpoint_round`: A
* `C53_midpoint_par_round`: A
* `C53_trapezoid_round`: A
* `C53_trapezoid_par_round`: A
* `C53_simpson_round`: A
* `C53_simpson_par_round`: A

## Prop_Scale.v

* `C90_values`: A
* `C90_values_par`: A
* `C90_points`: A
* `C90_variable`: A
* `C90_variable_par`: A
* `C90_underflow_limit`: A

## Prop_Sep.v

* `C73_chebyshev1`: A
* `C73_chebyshev2`: A
* `C73_legendre`: A
* `C73_legendre_big`: A
* `C73_chebyshev1_large_degree_ends_in_ones`: A
* `C73_chebyshev2_large_degree_ends_in_ones`: A
* `C73_legendre_large_degree_ends_in_ones`: A
* `C12_chebyshev1_double`: A
* `C12_chebyshev2_double`: A
* `C12_legendre_double`: A
* `C12_legendre_big_double`: A

## Prop_Serde.v

* `C57_round_trip`: B
* `C57_accepted_legendre`: B
* `C57_accepted_chebyshev1`: B
* `C57_accepted_chebyshev2`: B
* `C57_accepted_hermite`: B
* `C57_accepted_laguerre`: B
* `C57_accepted_jacobi`: B
* `C57_accepted_newton_cotes`: B
* `C57_field_errors`: B
* `C60_newton_cotes_degree_valid_partial`: B
* `C60_deserialized_rules_are_valid_refuted`: A
* `C60_deserialized_parameters_are_valid_refuted`: A
* `C58_bytes`: A
* `C58_zeroed_is_valid`: A
* `C59_parse_errors`: A
* `C59_source_has_same_message`: B
* `C59_errors_equal`: B

## Prop_Side.v

* `C79_hermite`: A
* `C79_laguerre`: A
* `C79_jacobi`: A
* `C79_chebyshev1`: A
* `C79_chebyshev2`: A
* `C79_legendre`: C
* `C79_legendre_big`: C

## Prop_Sign.v

* `C49_legendre_weights`: A
* `C49_jacobi_weights`: A
* `C49_laguerre_weights_accurate`: A

## Prop_Singular.v

* `C99_chebyshev1`: A
* `C99_chebyshev2`: A
* `C99_jacobi`: A

## Prop_TrigFloat.v

* `C70_chebyshev1`: A
* `C70_chebyshev2`: A
* `C70_legendre`: A
* `C70_legendre_big`: A
* `C71_chebyshev1`: A
* `C71_chebyshev2`: A
* `C71_legendre`: C
* `C71_legendre_big`: A
* `C71_chebyshev1_integral`: A
* `C71_chebyshev2_integral`: A
* `C71_legendre_integral`: C
* `C71_legendre_any`: C
* `C71_legendre_big_integral`: A

## Prop_Var.v

* `C91_newton_cotes`: A
* `C91_legendre`: C
* `C91_chebyshev1`: A
* `C91_chebyshev2`: A
* `C91_jacobi`: A
* `C91_hermite`: A
* `C91_laguerre`: A
