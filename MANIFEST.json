{
 "claims": [
  {
   "property": "C01",
   "status": "proved",
   "theorems": [
    "C01_interpolation_exact"
   ],
   "note": ""
  },
  {
   "property": "C02",
   "status": "proved",
   "theorems": [
    "C02_rows_sum_to_one_and_copy"
   ],
   "note": ""
  },
  {
   "property": "C03",
   "status": "proved",
   "theorems": [
    "C03_settings_interchangeable",
    "C03_chebfun_single_point_refuted"
   ],
   "note": ""
  },
  {
   "property": "C04",
   "status": "proved",
   "theorems": [
    "C04_duplicated_points"
   ],
   "note": ""
  },
  {
   "property": "C05",
   "status": "proved",
   "theorems": [
    "C05_integration_exact"
   ],
   "note": ""
  },
  {
   "property": "C06",
   "status": "proved",
   "theorems": [
    "C06_integration_additive"
   ],
   "note": ""
  },
  {
   "property": "C07",
   "status": "proved",
   "theorems": [
    "C07_exact",
    "C07_nodes",
    "C07_weights",
    "C07_no_points",
    "C07_meets_contract",
    "C07_lagrange_integration"
   ],
   "note": ""
  },
  {
   "property": "C08",
   "status": "proved",
   "theorems": [
    "C08_first_derivative_exact"
   ],
   "note": ""
  },
  {
   "property": "C09",
   "status": "proved",
   "theorems": [
    "C09_second_derivative_exact"
   ],
   "note": ""
  },
  {
   "property": "C10",
   "status": "proved",
   "theorems": [
    "C10_constructor_outcomes",
    "C10_method_outcomes"
   ],
   "note": ""
  },
  {
   "property": "C11",
   "status": "proved",
   "theorems": [
    "C11_call_evaluates_interpolant",
    "C11_interpolant_exists"
   ],
   "note": ""
  },
  {
   "property": "C12",
   "status": "proved",
   "theorems": [
    "C12_order_too_large",
    "C12_negative_order",
    "C12_rows",
    "C12_sums_and_support",
    "C12_exact",
    "C12_one_point",
    "C12_reuse_refuted",
    "C12_fine_grid_refuted"
   ],
   "note": "Unconditional exactness is false: C12_reuse_refuted, C12_fine_grid_refuted (np.allclose reuses the previous line)."
  },
  {
   "property": "C13",
   "status": "proved",
   "theorems": [
    "C13_negative_order",
    "C13_rows",
    "C13_sums_and_support",
    "C13_exact",
    "C13_output_shift",
    "C13_far_grid_refuted",
    "C13_both_ends_refuted"
   ],
   "note": "The restriction on the grid is needed: C13_far_grid_refuted, C13_both_ends_refuted."
  },
  {
   "property": "C14",
   "status": "proved",
   "theorems": [
    "C14_unsorted_points_refuted",
    "C14_unsorted_derivative_refuted",
    "C14_rows",
    "C14_exact_iff",
    "C14_derivative_iff",
    "C14_all_exact",
    "C14_sorted",
    "C14_decreasing_symmetric",
    "C14_two_points",
    "C14_pole_refuted"
   ],
   "note": "Exactness for every order of the points is false: C14_unsorted_points_refuted, C14_unsorted_derivative_refuted, C14_pole_refuted; the exact condition is C14_exact_iff."
  },
  {
   "property": "C15",
   "status": "proved",
   "theorems": [
    "C15_equidistant",
    "C15_values"
   ],
   "note": ""
  },
  {
   "property": "C16",
   "status": "proved",
   "theorems": [
    "C16_constructor",
    "C16_getNodes"
   ],
   "note": ""
  },
  {
   "property": "C17",
   "status": "proved",
   "theorems": [
    "C17_coefficients",
    "C17_denominators"
   ],
   "note": ""
  },
  {
   "property": "C18",
   "status": "proved",
   "theorems": [
    "C18_endpoints",
    "C18_forcing"
   ],
   "note": ""
  },
  {
   "property": "C19",
   "status": "proved",
   "theorems": [
    "C19_nodes"
   ],
   "note": ""
  },
  {
   "property": "C20",
   "status": "proved",
   "theorems": [
    "C20_mirror",
    "C20_symmetric",
    "C20_equidistant"
   ],
   "note": ""
  },
  {
   "property": "C21",
   "status": "proved",
   "theorems": [
    "C21_defined",
    "C21_nodes",
    "C21_exact"
   ],
   "note": ""
  },
  {
   "property": "C22",
   "status": "proved",
   "theorems": [
    "C22_last_row",
    "C22_first_row",
    "C22_left_is_node",
    "C22_right_is_node"
   ],
   "note": ""
  },
  {
   "property": "C23",
   "status": "proved",
   "theorems": [
    "C23_S",
    "C23_transfer"
   ],
   "note": ""
  },
  {
   "property": "C24",
   "status": "proved",
   "theorems": [
    "C24_legendre_order",
    "C24_no_order"
   ],
   "note": ""
  },
  {
   "property": "C25",
   "status": "proved",
   "theorems": [
    "C25_declared_order"
   ],
   "note": ""
  },
  {
   "property": "C26",
   "status": "proved",
   "theorems": [
    "C26_moments",
    "C26_dahlquist_order"
   ],
   "note": ""
  },
  {
   "property": "C27",
   "status": "proved",
   "theorems": [
    "C27_affine"
   ],
   "note": ""
  },
  {
   "property": "C28",
   "status": "proved",
   "theorems": [
    "C28_nodes_kept",
    "C28_unit_interval_refuted",
    "C28_large_offset_refuted"
   ],
   "note": "The unconditional claim is false: C28_unit_interval_refuted, C28_large_offset_refuted."
  },
  {
   "property": "C29",
   "status": "proved",
   "theorems": [
    "C29_hCoeffs",
    "C29_fallback_unused",
    "C29_rk_hCoeffs",
    "C29_right_boundary_refuted",
    "C29_EDIRK43_refuted"
   ],
   "note": "The expected reading is false: C29_right_boundary_refuted, C29_EDIRK43_refuted."
  },
  {
   "property": "C30",
   "status": "proved",
   "theorems": [
    "C30_padding_invariant",
    "C30_padding_argument",
    "C30_padded_table",
    "C30_padding_consistent"
   ],
   "note": ""
  },
  {
   "property": "C31",
   "status": "proved",
   "theorems": [
    "C31_padded_embedded_fails",
    "C31_padding_embedded_refuted"
   ],
   "note": "The expected property is false: C31_padding_embedded_refuted; the failure is proved for every table and padding."
  },
  {
   "property": "C32",
   "status": "proved",
   "theorems": [
    "C32_stability_function",
    "C32_linear_in_u0",
    "C32_bad_number_of_steps"
   ],
   "note": ""
  },
  {
   "property": "C33",
   "status": "proved",
   "theorems": [
    "C33_explicit_never_fails"
   ],
   "note": ""
  },
  {
   "property": "C34",
   "status": "proved",
   "theorems": [
    "C34_tables_consistent",
    "C34_RK53_nodes_refuted"
   ],
   "note": "RK53 is a refuted exception (C34_RK53_nodes_refuted)."
  },
  {
   "property": "C35",
   "status": "proved",
   "theorems": [
    "C35_order_conditions",
    "C35_embedded_order_conditions",
    "C35_linear_order",
    "C35_dahlquist_order",
    "C35_order_sharp",
    "C35_RK32_order_refuted",
    "C35_ARK343ERK_order_refuted",
    "C35_embedded_order_refuted"
   ],
   "note": "Three refuted exceptions: RK32, ARK343ERK, embedded weights of ARK548L2SAESDIRK."
  },
  {
   "property": "C36",
   "status": "proved",
   "theorems": [
    "C36_collocation",
    "C36_forms",
    "C36_errors",
    "C36_N2N_rows",
    "C36_rk_embedded"
   ],
   "note": ""
  },
  {
   "property": "C37",
   "status": "proved",
   "theorems": [
    "C37_init",
    "C37_entries",
    "C37_N2N",
    "C37_consistent",
    "C37_integer_nodes_refuted"
   ],
   "note": "Statement was narrowed: the unconditional form is false, C37_integer_nodes_refuted."
  },
  {
   "property": "C38",
   "status": "proved",
   "theorems": [
    "C38_entries",
    "C38_consistent"
   ],
   "note": "Statement was replaced: the expected one (any tLeft) is false; C38_consistent gives the exact condition tLeft=0."
  },
  {
   "property": "C39",
   "status": "proved",
   "theorems": [
    "C39_leapfrog",
    "C39_never_consistent",
    "C39_zero_first"
   ],
   "note": "Statement was replaced: consistency was expected and is false for positive first nodes (C39_never_consistent)."
  },
  {
   "property": "C40",
   "status": "proved",
   "theorems": [
    "C40_nilpotent",
    "C40_offset_refuted"
   ],
   "note": "Restricted to intervals starting at 0; C40_offset_refuted shows the restriction is needed."
  },
  {
   "property": "C41",
   "status": "proved",
   "theorems": [
    "C41_product",
    "C41_product_left"
   ],
   "note": ""
  },
  {
   "property": "C42",
   "status": "proved",
   "theorems": [
    "C42_invalid",
    "C42_none",
    "C42_jumper",
    "C42_flexjumper",
    "C42_dnodes",
    "C42_minsrns",
    "C42_flex"
   ],
   "note": ""
  },
  {
   "property": "C43",
   "status": "proved",
   "theorems": [
    "C43_ldu",
    "C43_not_square"
   ],
   "note": ""
  },
  {
   "property": "C44",
   "status": "proved",
   "theorems": [
    "C44_zero_first_row_refuted",
    "C44_left_node_refuted"
   ],
   "note": "Statement was replaced: the expected one (always finite) is false, C44_zero_first_row_refuted and C44_left_node_refuted."
  },
  {
   "property": "C45",
   "status": "proved",
   "theorems": [
    "C45_LU",
    "C45_nilpotent",
    "C45_LU2",
    "C45_exchange_refuted"
   ],
   "note": "Nilpotency needs the no-exchange premise: C45_exchange_refuted."
  },
  {
   "property": "C46",
   "status": "proved",
   "theorems": [
    "C46_PIC",
    "C46_Exact",
    "C46_QPar",
    "C46_GS"
   ],
   "note": ""
  },
  {
   "property": "C47",
   "status": "proved",
   "theorems": [
    "C47_cache_transparent",
    "C47_kindep"
   ],
   "note": "Includes private-array histories; the non-copying calls are excluded because of C48."
  },
  {
   "property": "C48",
   "status": "proved",
   "theorems": [
    "C48_shared",
    "C48_shared_memo",
    "C48_shared_argument",
    "C48_private_refuted",
    "C48_rk_shared",
    "C48_rk_padded_private"
   ],
   "note": "Statement was replaced: privacy was expected and is false, C48_private_refuted."
  },
  {
   "property": "C49",
   "status": "proved",
   "theorems": [
    "C49_sweeps",
    "C49_agree",
    "C49_errors"
   ],
   "note": ""
  },
  {
   "property": "C50",
   "status": "proved",
   "theorems": [
    "C50_argument_after",
    "C50_unchanged_iff",
    "C50_second_call",
    "C50_unmodified_refuted"
   ],
   "note": "Statement was replaced: C50_unmodified_refuted."
  },
  {
   "property": "C51",
   "status": "proved",
   "theorems": [
    "C51_resolution",
    "C51_values",
    "C51_both",
    "C51_coll_alias",
    "C51_nested",
    "C51_surplus"
   ],
   "note": ""
  },
  {
   "property": "C52",
   "status": "proved",
   "theorems": [
    "C52_stable",
    "C52_existing_name",
    "C52_success_iff",
    "C52_stored",
    "C52_keys_unique",
    "C52_getClasses",
    "C52_getClasses_once"
   ],
   "note": ""
  },
  {
   "property": "C53",
   "status": "proved",
   "theorems": [
    "C53_class_stays",
    "C53_unchanged_iff",
    "C53_state",
    "C53_inherited_aliases",
    "C53_nearest_aliases",
    "C53_atomic_refuted"
   ],
   "note": "Statement was replaced: C53_atomic_refuted."
  },
  {
   "property": "C54",
   "status": "proved",
   "theorems": [
    "C54_exact_order",
    "C54_integer_order",
    "C54_least_squares",
    "C54_scaling",
    "C54_single_size",
    "C54_nonpositive_error",
    "C54_one_error",
    "C54_sizes"
   ],
   "note": ""
  },
  {
   "property": "C55",
   "status": "proved",
   "theorems": [
    "C55_defined",
    "C55_negative",
    "C55_exact",
    "C55_least_squares",
    "C55_interpolation"
   ],
   "note": ""
  },
  {
   "property": "C56",
   "status": "proved",
   "theorems": [
    "C56_fixed_point",
    "C56_exact"
   ],
   "note": ""
  },
  {
   "property": "C57",
   "status": "proved",
   "theorems": [
    "C57_bound",
    "C57_order_exact",
    "C57_order_weights",
    "C57_order_last",
    "C57_collocation",
    "C57_last_node_refuted",
    "C57_error_recursion"
   ],
   "note": "Statement was narrowed: the last-node update needs the last node to be 1 (C57_last_node_refuted)."
  },
  {
   "property": "C58",
   "status": "proved",
   "theorems": [
    "C58_order_weights",
    "C58_order_last",
    "C58_trap_linear",
    "C58_collocation"
   ],
   "note": ""
  },
  {
   "property": "C59",
   "status": "proved",
   "theorems": [
    "C59_solution",
    "C59_residual",
    "C59_monitoring_neutral",
    "C59_unknown_key",
    "C59_shapes",
    "C59_repeat",
    "C59_size"
   ],
   "note": ""
  },
  {
   "property": "C60",
   "status": "proved",
   "theorems": [
    "C60_bonus",
    "C60_bounds",
    "C60_base_monotone",
    "C60_base_bound",
    "C60_count",
    "C60_exceeds_refuted",
    "C60_monotone_refuted",
    "C60_twice_refuted",
    "C60_base_value"
   ],
   "note": "Statement was replaced: the expected one (bounded by the collocation order, monotone, at most 2k+1) is false: C60_exceeds_refuted, C60_monotone_refuted, C60_twice_refuted."
  },
  {
   "property": "C61",
   "status": "proved",
   "theorems": [
    "C61_collocation",
    "C61_difference",
    "C61_converged",
    "C61_updates"
   ],
   "note": ""
  },
  {
   "property": "C62",
   "status": "proved",
   "theorems": [
    "C62_nodal_polynomial"
   ],
   "note": ""
  },
  {
   "property": "C63",
   "status": "proved",
   "theorems": [
    "C63_nilpotent",
    "C63_nilpotent_left"
   ],
   "note": "Under an exact-root contract for scipy.optimize.fsolve."
  },
  {
   "property": "C64",
   "status": "proved",
   "theorems": [
    "C64_timestep",
    "C64_minsr_refuted"
   ],
   "note": "The expected statement (every interval) is false; proved as an equivalence with a=0, C64_minsr_refuted for MIN-SR-S."
  },
  {
   "property": "C65",
   "status": "proved",
   "theorems": [
    "C65_equid_quadrature",
    "C65_equid_last",
    "C65_expected_refuted",
    "C65_base_attained"
   ],
   "note": "That the expected order is always attained is false (C65_expected_refuted); the exact order is proved on equidistant nodes only, the base order for all collocation methods."
  },
  {
   "property": "C66",
   "status": "proved",
   "theorems": [
    "C66_eigenvalues_exist",
    "C66_contracts_exist",
    "C66_nodes_unique",
    "C66_nodes_ok",
    "C66_rules_ok",
    "C66_collocation"
   ],
   "note": ""
  },
  {
   "property": "C67",
   "status": "proved",
   "theorems": [
    "C67_closed_forms",
    "C67_fejer_nodes",
    "C67_real"
   ],
   "note": ""
  },
  {
   "property": "C68",
   "status": "proved",
   "theorems": [
    "C68_stored_unique",
    "C68_lookup",
    "C68_registerTable",
    "C68_supported",
    "C68_positive",
    "C68_stiff",
    "C68_min",
    "C68_real"
   ],
   "note": ""
  },
  {
   "property": "C69",
   "status": "proved",
   "theorems": [
    "C69_error",
    "C69_error_raises",
    "C69_errorSDC",
    "C69_errorSDC_raises",
    "C69_given",
    "C69_given_wrong_size",
    "C69_given_size_refuted",
    "C69_zero"
   ],
   "note": "The expected rejection of every wrong length is false: C69_given_size_refuted (a single value is broadcast)."
  },
  {
   "property": "C70",
   "status": "proved",
   "theorems": [
    "C70_stability_function",
    "C70_stiff_limit"
   ],
   "note": ""
  },
  {
   "property": "C71",
   "status": "proved",
   "theorems": [
    "C71_stable",
    "C71_radau_left",
    "C71_real",
    "C71_all_stable_refuted"
   ],
   "note": "The expected form (all four types) is false: C71_all_stable_refuted; C71_radau_left says it fails for every RADAU-LEFT method. Nodes that are not end points are supposed not to be rounded to them (premise separated)."
  },
  {
   "property": "C72",
   "status": "proved",
   "theorems": [
    "C72_qdelta_success",
    "C72_qdelta_effect",
    "C72_qdelta_failure",
    "C72_qdelta_mistakes",
    "C72_kdependent",
    "C72_table",
    "C72_call",
    "C72_q_success",
    "C72_q_effect",
    "C72_q_not_buildable",
    "C72_rk_success",
    "C72_kdependent_refuted",
    "C72_mixin_refuted",
    "C72_rk_trace_refuted",
    "C72_rk_b2_refuted",
    "C72_rk_nodes_refuted"
   ],
   "note": "Expected forms that are false: C72_kdependent_refuted, C72_mixin_refuted, C72_rk_trace_refuted, C72_rk_b2_refuted, C72_rk_nodes_refuted."
  },
  {
   "property": "C73",
   "status": "proved",
   "theorems": [
    "C73_import",
    "C73_kdependent",
    "C73_tables"
   ],
   "note": ""
  },
  {
   "property": "C74",
   "status": "proved",
   "theorems": [
    "C74_forms",
    "C74_triangular",
    "C74_BE",
    "C74_FE",
    "C74_TRAP",
    "C74_PIC"
   ],
   "note": ""
  },
  {
   "property": "C75",
   "status": "proved",
   "theorems": [
    "C75_nodes",
    "C75_step"
   ],
   "note": ""
  },
  {
   "property": "C76",
   "status": "proved",
   "theorems": [
    "C76_explicit",
    "C76_convergence",
    "C76_registered",
    "C76_collocation",
    "C76_sdc"
   ],
   "note": ""
  },
  {
   "property": "C77",
   "status": "proved",
   "theorems": [
    "C77_leading_term",
    "C77_rk_rate",
    "C77_sdc_rate",
    "C77_equid_quadrature",
    "C77_equid_last"
   ],
   "note": ""
  },
  {
   "property": "C78",
   "status": "proved",
   "theorems": [
    "C78_exact_order",
    "C78_not_higher",
    "C78_moments",
    "C78_rate"
   ],
   "note": ""
  },
  {
   "property": "C79",
   "status": "proved",
   "theorems": [
    "C79_init",
    "C79_interpolation",
    "C79_call",
    "C79_exact",
    "C79_float64"
   ],
   "note": ""
  },
  {
   "property": "C80",
   "status": "proved",
   "theorems": [
    "C80_derivatives"
   ],
   "note": ""
  },
  {
   "property": "C81",
   "status": "proved",
   "theorems": [
    "C81_abscissa",
    "C81_quadrature",
    "C81_forward"
   ],
   "note": ""
  },
  {
   "property": "C82",
   "status": "proved",
   "theorems": [
    "C82_consistent",
    "C82_order",
    "C82_embedded_order",
    "C82_dahlquist",
    "C82_sharp",
    "C82_rounded",
    "C82_float64"
   ],
   "note": ""
  },
  {
   "property": "C83",
   "status": "proved",
   "theorems": [
    "C83_euler",
    "C83_trap",
    "C83_rows",
    "C83_backward",
    "C83_parallel"
   ],
   "note": ""
  },
  {
   "property": "C84",
   "status": "proved",
   "theorems": [
    "C84_solution",
    "C84_small_steps",
    "C84_growth",
    "C84_bad_number_of_steps"
   ],
   "note": ""
  },
  {
   "property": "C85",
   "status": "proved",
   "theorems": [
    "C85_rounding",
    "C85_nodes",
    "C85_solution",
    "C85_small_nodes",
    "C85_small",
    "C85_small_rounding",
    "C85_bad_arguments"
   ],
   "note": ""
  },
  {
   "property": "C86",
   "status": "proved",
   "theorems": [
    "C86_sensitivity",
    "C86_solver",
    "C86_sdc",
    "C86_stored",
    "C86_small"
   ],
   "note": ""
  },
  {
   "property": "C87",
   "status": "proved",
   "theorems": [
    "C87_total",
    "C87_order",
    "C87_registered",
    "C87_embedded",
    "C87_collocation"
   ],
   "note": ""
  },
  {
   "property": "C88",
   "status": "proved",
   "theorems": [
    "C88_total",
    "C88_weights",
    "C88_last",
    "C88_collocation"
   ],
   "note": ""
  }
 ]
}