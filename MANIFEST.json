{
 "claims": [
  {
   "property": "C01",
   "status": "proved",
   "theorems": [
    "C01_forecast_values",
    "C01_forecast_keys"
   ],
   "note": ""
  },
  {
   "property": "C02",
   "status": "proved",
   "theorems": [
    "C02_saved_times_filter",
    "C02_restriction_of_default",
    "C02_scalar_float"
   ],
   "note": ""
  },
  {
   "property": "C03",
   "status": "proved",
   "theorems": [
    "C03_predict_rows",
    "C03_predict_is_forecast_values",
    "C03_predict_fails_iff_forecast_fails"
   ],
   "note": ""
  },
  {
   "property": "C04",
   "status": "proved",
   "theorems": [
    "C04_forecast_restart"
   ],
   "note": ""
  },
  {
   "property": "C05",
   "status": "proved",
   "theorems": [
    "C05_forecast_failures"
   ],
   "note": "first_failure names the first scheme call that raises; predict is covered by C03_predict_fails_iff_forecast_fails."
  },
  {
   "property": "C06",
   "status": "proved",
   "theorems": [
    "C06_ensemble_schedule_independent",
    "C06_ensemble_memberwise",
    "C06_ensemble_failure",
    "C06_ensemble_ok_iff",
    "C06_exception_depends_on_schedule_refuted"
   ],
   "note": "The exception raised by a failing parallel ensemble does depend on the completion order (refuted theorem)."
  },
  {
   "property": "C07",
   "status": "proved",
   "theorems": [
    "C07_ensemble_keys"
   ],
   "note": ""
  },
  {
   "property": "C08",
   "status": "proved",
   "theorems": [
    "C08_forecast_tl_affine"
   ],
   "note": ""
  },
  {
   "property": "C09",
   "status": "proved",
   "theorems": [
    "C09_make_M_rows",
    "C09_make_M_is_transpose",
    "C09_make_M_matvec_iff_symmetric",
    "C09_make_M_matvec_refuted"
   ],
   "note": "make_M is the transpose; the natural reading is refuted."
  },
  {
   "property": "C10",
   "status": "proved",
   "theorems": [
    "C10_linear_step_is_truncated_exp"
   ],
   "note": ""
  },
  {
   "property": "C11",
   "status": "proved",
   "theorems": [
    "C11_forcing_exact",
    "C11_forcing_not_beyond_refuted"
   ],
   "note": ""
  },
  {
   "property": "C12",
   "status": "proved",
   "theorems": [
    "C12_linear_invariants"
   ],
   "note": ""
  },
  {
   "property": "C13",
   "status": "proved",
   "theorems": [
    "C13_step_intertwines",
    "C13_forecast_intertwines"
   ],
   "note": ""
  },
  {
   "property": "C14",
   "status": "proved",
   "theorems": [
    "C14_leapfrog_step",
    "C14_leapfrog_reversible",
    "C14_leapfrog_two_states"
   ],
   "note": ""
  },
  {
   "property": "C15",
   "status": "proved",
   "theorems": [
    "C15_splitting_sequential",
    "C15_splitting_trend_step",
    "C15_splitting_update_first",
    "C15_splitting_KeyError",
    "C15_splitting_empty"
   ],
   "note": ""
  },
  {
   "property": "C16",
   "status": "proved",
   "theorems": [
    "C16_set_history",
    "C16_active_scheme_unique",
    "C16_set_result",
    "C16_constructor"
   ],
   "note": ""
  },
  {
   "property": "C17",
   "status": "proved",
   "theorems": [
    "C17_identity_forecast",
    "C17_identity_leapfrog",
    "C17_leapfrog_not_stationary_refuted"
   ],
   "note": ""
  },
  {
   "property": "C18",
   "status": "proved",
   "theorems": [
    "C18_window_points",
    "C18_window_spacing",
    "C18_window_last",
    "C18_window_empty",
    "C18_window_zero_dt"
   ],
   "note": "Exact rationals; numpy's documented length formula for arange."
  },
  {
   "property": "C19",
   "status": "proved",
   "theorems": [
    "C19_randstate_steps",
    "C19_randstate_0"
   ],
   "note": ""
  },
  {
   "property": "C20",
   "status": "proved",
   "theorems": [
    "C20_euler",
    "C20_rk2",
    "C20_rk4",
    "C20_leapfrog",
    "C20_one_more_refuted"
   ],
   "note": ""
  },
  {
   "property": "C21",
   "status": "proved",
   "theorems": [
    "C21_stencil_is_central_difference",
    "C21_stencil_symmetric"
   ],
   "note": ""
  },
  {
   "property": "C22",
   "status": "proved",
   "theorems": [
    "C22_exact_on_polynomials",
    "C22_not_exact_beyond"
   ],
   "note": ""
  },
  {
   "property": "C23",
   "status": "proved",
   "theorems": [
    "C23_second_order_consistency",
    "C23_convergence"
   ],
   "note": ""
  },
  {
   "property": "C24",
   "status": "proved",
   "theorems": [
    "C24_mixed_is_tensor_product",
    "C24_variable_order_irrelevant"
   ],
   "note": ""
  },
  {
   "property": "C25",
   "status": "proved",
   "theorems": [
    "C25_simultaneous_replacement",
    "C25_iteration_order_irrelevant",
    "C25_increasing_order_refuted",
    "C25_system"
   ],
   "note": ""
  },
  {
   "property": "C26",
   "status": "proved",
   "theorems": [
    "C26_index_after_any_history",
    "C26_history_answers"
   ],
   "note": ""
  },
  {
   "property": "C27",
   "status": "proved",
   "theorems": [
    "C27_shifts_compose",
    "C27_shift_identity",
    "C27_shifts_commute",
    "C27_read_is_translation"
   ],
   "note": ""
  },
  {
   "property": "C28",
   "status": "proved",
   "theorems": [
    "C28_conservation",
    "C28_summation_by_parts"
   ],
   "note": ""
  },
  {
   "property": "C29",
   "status": "proved",
   "theorems": [
    "C29_rows",
    "C29_state_written_refuted"
   ],
   "note": ""
  },
  {
   "property": "C30",
   "status": "proved",
   "theorems": [
    "C30_constants"
   ],
   "note": ""
  },
  {
   "property": "C31",
   "status": "proved",
   "theorems": [
    "C31_lengths_validated",
    "C31_grid",
    "C31_empty_axis"
   ],
   "note": ""
  },
  {
   "property": "C32",
   "status": "proved",
   "theorems": [
    "C32_characterwise",
    "C32_result_clean",
    "C32_idempotent",
    "C32_identity_on_plain_names",
    "C32_compositional",
    "C32_injective_refuted"
   ],
   "note": ""
  },
  {
   "property": "C33",
   "status": "proved",
   "theorems": [
    "C33_spacings_replaced",
    "C33_prefix_names_refuted",
    "C33_field_name_refuted"
   ],
   "note": ""
  },
  {
   "property": "C34",
   "status": "proved",
   "theorems": [
    "C34_coordinates_recovered",
    "C34_all_arguments",
    "C34_order_dependent_names",
    "C34_order_independence_refuted",
    "C34_wrong_number_of_symbols"
   ],
   "note": ""
  },
  {
   "property": "C35",
   "status": "proved",
   "theorems": [
    "C35_displacement_recovered",
    "C35_zero_displacement_is_bare",
    "C35_off_grid_rejected",
    "C35_name_recovered_refuted"
   ],
   "note": ""
  },
  {
   "property": "C36",
   "status": "proved",
   "theorems": [
    "C36_formats_describe",
    "C36_invalid_type_error",
    "C36_round_trips",
    "C36_negative_orders_lost_by_sequence",
    "C36_equality"
   ],
   "note": ""
  },
  {
   "property": "C37",
   "status": "proved",
   "theorems": [
    "C37_degree",
    "C37_all_of_degree",
    "C37_no_coordinate"
   ],
   "note": ""
  },
  {
   "property": "C38",
   "status": "proved",
   "theorems": [
    "C38_rules_are_identities"
   ],
   "note": ""
  },
  {
   "property": "C39",
   "status": "proved",
   "theorems": [
    "C39_complete",
    "C39_only_pairs"
   ],
   "note": ""
  },
  {
   "property": "C40",
   "status": "proved",
   "theorems": [
    "C40_normal_forms",
    "C40_not_without_self_substitution_refuted"
   ],
   "note": ""
  },
  {
   "property": "C41",
   "status": "proved",
   "theorems": [
    "C41_history_independent",
    "C41_default_degree",
    "C41_history_without_coordinates_refuted"
   ],
   "note": ""
  },
  {
   "property": "C42",
   "status": "proved",
   "theorems": [
    "C42_israndom_sound",
    "C42_average_never_random",
    "C42_without_omega_never_random",
    "C42_answers",
    "C42_random_bounds_refuted"
   ],
   "note": ""
  },
  {
   "property": "C43",
   "status": "proved",
   "theorems": [
    "C43_sound",
    "C43_sound_without_mixed_derivatives",
    "C43_distribute",
    "C43_deterministic_unchanged",
    "C43_fully_distributed",
    "C43_total",
    "C43_equation"
   ],
   "note": ""
  },
  {
   "property": "C44",
   "status": "proved",
   "theorems": [
    "C44_first_variable_only",
    "C44_single_variable",
    "C44_mixed_refuted"
   ],
   "note": ""
  },
  {
   "property": "C45",
   "status": "proved",
   "theorems": [
    "C45_result_not_random",
    "C45_idempotent"
   ],
   "note": ""
  },
  {
   "property": "C46",
   "status": "proved",
   "theorems": [
    "C46_internal_closure"
   ],
   "note": "Every entry of the internal closure is an identity of every error model; derivative order alphabetical, 'is' read as structural equality."
  },
  {
   "property": "C47",
   "status": "proved",
   "theorems": [
    "C47_error_system",
    "C47_expansion",
    "C47_linear"
   ],
   "note": "Polynomial right-hand sides D_t u_i = p_i, all fields on the same coordinates."
  },
  {
   "property": "C48",
   "status": "proved",
   "theorems": [
    "C48_variance_system"
   ],
   "note": ""
  },
  {
   "property": "C49",
   "status": "proved",
   "theorems": [
    "C49_epsilon_system"
   ],
   "note": ""
  },
  {
   "property": "C50",
   "status": "proved",
   "theorems": [
    "C50_metric_system"
   ],
   "note": ""
  },
  {
   "property": "C51",
   "status": "proved",
   "theorems": [
    "C51_cross_covariance_system"
   ],
   "note": ""
  },
  {
   "property": "C52",
   "status": "proved",
   "theorems": [
    "C52_expectation_system"
   ],
   "note": ""
  },
  {
   "property": "C53",
   "status": "proved",
   "theorems": [
    "C53_inverse_derivative",
    "C53_in_diffusion"
   ],
   "note": ""
  },
  {
   "property": "C54",
   "status": "proved",
   "theorems": [
    "C54_inverse_derivative",
    "C54_in_aspect"
   ],
   "note": ""
  },
  {
   "property": "C55",
   "status": "proved",
   "theorems": [
    "C55_in_metric",
    "C55_in_diffusion_closed_refuted",
    "C55_closure_applied"
   ],
   "note": "in_metric keeps the exact solutions; in_diffusion is refuted for coupled systems (it omits the cross-covariance equations). C55_closure_applied: what an external closure leaves."
  },
  {
   "property": "C56",
   "status": "proved",
   "theorems": [
    "C56_history"
   ],
   "note": ""
  },
  {
   "property": "C57",
   "status": "proved",
   "theorems": [
    "C57_callers_dict",
    "C57_stale",
    "C57_sharing_refuted"
   ],
   "note": ""
  },
  {
   "property": "C58",
   "status": "proved",
   "theorems": [
    "C58_unclosed_terms",
    "C58_unclosed_is_unknown_refuted"
   ],
   "note": "unclosed_terms are exactly the averages left in the system; the reading 'a reported term is unknown' is refuted."
  },
  {
   "property": "C59",
   "status": "proved",
   "theorems": [
    "C59_foreign_random"
   ],
   "note": ""
  },
  {
   "property": "C60",
   "status": "proved",
   "theorems": [
    "C60_value",
    "C60_errors",
    "C60_asymmetric",
    "C60_unique_refuted",
    "C60_field_refuted"
   ],
   "note": ""
  },
  {
   "property": "C61",
   "status": "proved",
   "theorems": [
    "C61_symmetric",
    "C61_tensors",
    "C61_index_error",
    "C61_distinct",
    "C61_kinds",
    "C61_same_lengths",
    "C61_distinct_refuted",
    "C61_fields_refuted"
   ],
   "note": ""
  },
  {
   "property": "C62",
   "status": "proved",
   "theorems": [
    "C62_value",
    "C62_derivative",
    "C62_right_iff",
    "C62_mixed_refuted"
   ],
   "note": ""
  },
  {
   "property": "C63",
   "status": "proved",
   "theorems": [
    "C63_history",
    "C63_closures_complete",
    "C63_taylor_empties",
    "C63_missing_refuted",
    "C63_extra_refuted",
    "C63_metric_overwrites_refuted"
   ],
   "note": ""
  },
  {
   "property": "C64",
   "status": "proved",
   "theorems": [
    "C64_key_error",
    "C64_two_dimensions",
    "C64_other_dimensions",
    "C64_labels"
   ],
   "note": ""
  },
  {
   "property": "C65",
   "status": "proved",
   "theorems": [
    "C65_metric_form",
    "C65_aspect_form",
    "C65_base_form",
    "C65_metric_refuted",
    "C65_variable_aspect"
   ],
   "note": ""
  },
  {
   "property": "C66",
   "status": "proved",
   "theorems": [
    "C66_partition"
   ],
   "note": ""
  },
  {
   "property": "C67",
   "status": "proved",
   "theorems": [
    "C67_time_first",
    "C67_time_last_refuted"
   ],
   "note": ""
  },
  {
   "property": "C68",
   "status": "proved",
   "theorems": [
    "C68_constants"
   ],
   "note": ""
  },
  {
   "property": "C69",
   "status": "proved",
   "theorems": [
    "C69_coordinates",
    "C69_failure",
    "C69_other_coordinate_refuted"
   ],
   "note": ""
  },
  {
   "property": "C70",
   "status": "proved",
   "theorems": [
    "C70_sum_and_difference",
    "C70_negation",
    "C70_multiple",
    "C70_product",
    "C70_sides",
    "C70_isolate"
   ],
   "note": ""
  },
  {
   "property": "C71",
   "status": "proved",
   "theorems": [
    "C71_degenerate",
    "C71_sum_of_truth_value"
   ],
   "note": ""
  },
  {
   "property": "C72",
   "status": "proved",
   "theorems": [
    "C72_gradient_fails",
    "C72_laplacian",
    "C72_extra_components_ignored",
    "C72_composition_refuted"
   ],
   "note": ""
  },
  {
   "property": "C73",
   "status": "proved",
   "theorems": [
    "C73_equation",
    "C73_partition",
    "C73_same_terms",
    "C73_coefficients_refuted"
   ],
   "note": ""
  },
  {
   "property": "C74",
   "status": "proved",
   "theorems": [
    "C74_sum",
    "C74_count"
   ],
   "note": ""
  },
  {
   "property": "C75",
   "status": "proved",
   "theorems": [
    "C75_enumerates",
    "C75_zip",
    "C75_determines"
   ],
   "note": ""
  },
  {
   "property": "C76",
   "status": "proved",
   "theorems": [
    "C76_derivative_names_unique",
    "C76_kinds_disjoint",
    "C76_unique_refuted",
    "C76_kinds_disjoint_refuted"
   ],
   "note": ""
  },
  {
   "property": "C77",
   "status": "proved",
   "theorems": [
    "C77_rejected",
    "C77_accepted",
    "C77_replaced",
    "C77_nested_refuted",
    "C77_mixed_refuted"
   ],
   "note": ""
  },
  {
   "property": "C78",
   "status": "proved",
   "theorems": [
    "C78_forecast_tl_duplicates_refuted"
   ],
   "note": ""
  },
  {
   "property": "C79",
   "status": "proved",
   "theorems": [
    "C79_meshgrid_shape",
    "C79_field_shape_refuted"
   ],
   "note": ""
  },
  {
   "property": "C80",
   "status": "proved",
   "theorems": [
    "C80_write_is_seen",
    "C80_pure_under_writes_refuted"
   ],
   "note": ""
  },
  {
   "property": "C81",
   "status": "proved",
   "theorems": [
    "C81_reserved_name_replaced",
    "C81_grid_preserved_refuted"
   ],
   "note": ""
  },
  {
   "property": "C82",
   "status": "proved",
   "theorems": [
    "C82_spacing_before_x"
   ],
   "note": ""
  },
  {
   "property": "C83",
   "status": "proved",
   "theorems": [
    "C83_raw_coordinate_unknown"
   ],
   "note": ""
  },
  {
   "property": "C84",
   "status": "proved",
   "theorems": [
    "C84_has",
    "C84_contains_itself_refuted",
    "C84_never_contains_itself"
   ],
   "note": ""
  },
  {
   "property": "C85",
   "status": "proved",
   "theorems": [
    "C85_in_order",
    "C85_twice_refuted"
   ],
   "note": ""
  },
  {
   "property": "C86",
   "status": "proved",
   "theorems": [
    "C86_shared",
    "C86_other_names"
   ],
   "note": ""
  },
  {
   "property": "C87",
   "status": "proved",
   "theorems": [
    "C87_shifted",
    "C87_depth_refuted"
   ],
   "note": ""
  },
  {
   "property": "C88",
   "status": "proved",
   "theorems": [
    "C88_unreadable",
    "C88_names",
    "C88_square_root"
   ],
   "note": ""
  },
  {
   "property": "C89",
   "status": "proved",
   "theorems": [
    "C89_default_exogenous"
   ],
   "note": ""
  },
  {
   "property": "C90",
   "status": "proved",
   "theorems": [
    "C90_np"
   ],
   "note": ""
  },
  {
   "property": "C91",
   "status": "proved",
   "theorems": [
    "C91_advection_refuted"
   ],
   "note": ""
  },
  {
   "property": "C92",
   "status": "proved",
   "theorems": [
    "C92_no_space"
   ],
   "note": ""
  },
  {
   "property": "C93",
   "status": "proved",
   "theorems": [
    "C93_explicit_errors",
    "C93_explicit_parameters",
    "C93_explicit_pkf"
   ],
   "note": ""
  },
  {
   "property": "C94",
   "status": "proved",
   "theorems": [
    "C94_internal_keys",
    "C94_apply_reduced",
    "C94_systems_reduced",
    "C94_expectation_refuted"
   ],
   "note": ""
  },
  {
   "property": "C95",
   "status": "proved",
   "theorems": [
    "C95_retry",
    "C95_expectation_refuted"
   ],
   "note": ""
  },
  {
   "property": "C96",
   "status": "proved",
   "theorems": [
    "C96_orders",
    "C96_one_field",
    "C96_closed",
    "C96_unclosed",
    "C96_sharp",
    "C96_first_order_refuted"
   ],
   "note": ""
  },
  {
   "property": "C97",
   "status": "proved",
   "theorems": [
    "C97_euler",
    "C97_rk2",
    "C97_rk4"
   ],
   "note": ""
  },
  {
   "property": "C98",
   "status": "proved",
   "theorems": [
    "C98_forecast",
    "C98_served",
    "C98_predict",
    "C98_forecast_fails",
    "C98_forecast_all",
    "C98_forecast_none",
    "C98_ensemble",
    "C98_ensemble_ok",
    "C98_ensemble_parallel",
    "C98_forecast_tl",
    "C98_same_as_list_refuted"
   ],
   "note": ""
  },
  {
   "property": "C99",
   "status": "proved",
   "theorems": [
    "C99_std",
    "C99_equivalent"
   ],
   "note": ""
  },
  {
   "property": "C100",
   "status": "proved",
   "theorems": [
    "C100_rates",
    "C100_pkf_rates",
    "C100_order_errors",
    "C100_order_pkf"
   ],
   "note": ""
  },
  {
   "property": "C101",
   "status": "proved",
   "theorems": [
    "C101_unclosed_term",
    "C101_closed",
    "C101_closure_error",
    "C101_p18",
    "C101_no_exact_closure",
    "C101_gaussian",
    "C101_constructor_raises",
    "C101_constructor_refuted"
   ],
   "note": "Equations, unclosed term and closure error for all iteration orders; C101_constructor_refuted: Burgers(n) always raises NameError (Python scoping modelled)."
  },
  {
   "property": "C102",
   "status": "proved",
   "theorems": [
    "C102_statements",
    "C102_indentation",
    "C102_trend_program",
    "C102_manifold_code",
    "C102_no_keyword",
    "C102_keyword_breaks",
    "C102_keyword_refuted",
    "C102_file",
    "C102_overwritten_refuted"
   ],
   "note": "Templates verbatim, the part of jinja2 they use is modelled (lexer, parser, whitespace control, renderer). Refuted: readable for every system (keyword names), one file per class."
  },
  {
   "property": "C103",
   "status": "proved",
   "theorems": [
    "C103_manifold_constructor",
    "C103_scheme_FD",
    "C103_scheme_ignored",
    "C103_scheme_refuted"
   ],
   "note": "C103_scheme_refuted: a manifold model ignores the keyword time_scheme."
  },
  {
   "property": "C104",
   "status": "proved",
   "theorems": [
    "C104_regularized",
    "C104_refused",
    "C104_on_the_grid",
    "C104_derivative",
    "C104_first",
    "C104_third_refuted",
    "C104_system",
    "C104_system_refused"
   ],
   "note": "One derivative variable. C104_third_refuted: odd derivatives from order 3 on are multiplied by 2^(o-1)."
  },
  {
   "property": "C105",
   "status": "proved",
   "theorems": [
    "C105_subs_tree",
    "C105_silent",
    "C105_grows",
    "C105_history_refuted",
    "C105_gamma"
   ],
   "note": "C105_history_refuted: subs_tree is empty for a new object, non-empty after in_metric. gamma_subs is unused by the package."
  },
  {
   "property": "C106",
   "status": "proved",
   "theorems": [
    "C106_diffusion_is_aspect",
    "C106_diffusion_metric",
    "C106_diagonal",
    "C106_symmetric",
    "C106_bounds_1",
    "C106_bounds_2",
    "C106_loc_symmetric_refuted"
   ],
   "note": "Axioms of the real numbers of the standard library. Bounds proved in dimensions 1 and 2, the two the property claims. C106_loc_symmetric_refuted: the localised function is not symmetric."
  },
  {
   "property": "C107",
   "status": "proved",
   "theorems": [
    "C107_derivative",
    "C107_trend",
    "C107_periodic_needed"
   ],
   "note": "Axioms of the real numbers of the standard library. The differentiated functions depend on all the coordinates of the class. Powers with a derivative in them have natural exponents (polynomials), other powers are bounded. C107_periodic_needed: no convergence at the seam without the period."
  },
  {
   "property": "C108",
   "status": "proved",
   "theorems": [
    "C108_length",
    "C108_empty",
    "C108_zero_step",
    "C108_points",
    "C108_closest",
    "C108_steps",
    "C108_last",
    "C108_saved",
    "C108_saved_end_refuted",
    "C108_drift_refuted",
    "C108_starts",
    "C108_boundary",
    "C108_single_refuted"
   ],
   "note": "Axioms of the real numbers of the standard library (through Flocq). Times at most 2^40 steps from zero and dt in [2^-1000, 2^900]. C108_saved_end_refuted: 0.3 is not a point of window(0.3) for dt=0.1. C108_drift_refuted: beyond that range the points drift. C108_starts and C108_boundary have no such bound. C108_single_refuted: window(t,t) is empty for t=2**60, dt=1."
  },
  {
   "property": "C109",
   "status": "proved",
   "theorems": [
    "C109_burgers_scheme",
    "C109_diffusion_scheme",
    "C109_burgers",
    "C109_diffusion",
    "C109_unstable"
   ],
   "note": "Axioms of the real numbers of the standard library. Exact real arithmetic; the solution is assumed smooth with bounded derivatives on the interval. Burgers' equation with euler only; Kuramoto's equation of dynamics.py is not covered. C109_unstable: without 2*kappa*tau <= h^2 euler diverges."
  },
  {
   "property": "C110",
   "status": "proved",
   "theorems": [
    "C110_step",
    "C110_rk4",
    "C110_mode",
    "C110_unstable",
    "C110_leapfrog"
   ],
   "note": "Axioms of the real numbers of the standard library and functional extensionality. Exact real arithmetic. euler and rk2 amplify every undamped oscillation at any step (C110_unstable)."
  },
  {
   "property": "C111",
   "status": "proved",
   "theorems": [
    "C111_scheme",
    "C111_mass",
    "C111_energy",
    "C111_converges",
    "C111_unstable"
   ],
   "note": "Axioms of the real numbers of the standard library, classic and functional extensionality. Exact real arithmetic. Convergence is proved for constant winds; the energy bound for winds that do not vary along their own axis."
  },
  {
   "property": "C112",
   "status": "proved",
   "theorems": [
    "C112_linear_means",
    "C112_linear_closed",
    "C112_transport"
   ],
   "note": "No axioms. Values are in any commutative ring of random fields with derivations and an average (Reynolds.v). Winds, growth and source are functions, not constants of sympy."
  },
  {
   "property": "C113",
   "status": "proved",
   "theorems": [
    "C113_energy",
    "C113_converges",
    "C113_divergence_free_refuted"
   ],
   "note": "Exact real arithmetic. The winds do not depend on time (they are attributes of the generated class). C113_divergence_free_refuted: discretely divergence-free winds may increase the sum of squares."
  },
  {
   "property": "C114",
   "status": "proved",
   "theorems": [
    "C114_equations",
    "C114_dynamics",
    "C114_converges"
   ],
   "note": "Exact real arithmetic. C114_equations links the text given to the generator with in_aspect by value: in_aspect keeps the inverse of the tensor as a symbol, sympy displays the simplified form (notebook, cell 12), which StatModel writes. C114_dynamics is the exact dynamics of the statistics, C114_converges the forecasts."
  },
  {
   "property": "C115",
   "status": "proved",
   "theorems": [
    "C115_equation",
    "C115_scheme",
    "C115_mass",
    "C115_energy",
    "C115_converges",
    "C115_unstable"
   ],
   "note": "Exact real arithmetic. The order of the seven terms after doit() is ours; over the reals it does not matter (C115_equation gives the value). rk4 between 2.78 and 2.79 is not decided (the exact limit is the root 2.7853 of a cubic)."
  },
  {
   "property": "C116",
   "status": "proved",
   "theorems": [
    "C116_budget",
    "C116_bounds",
    "C116_converges",
    "C116_conservation_refuted",
    "C116_positivity_refuted"
   ],
   "note": "Exact real arithmetic. Convergence for variable tensors with a mixed component is not claimed: the scheme has no maximum principle there (C116_positivity_refuted)."
  },
  {
   "property": "C117",
   "status": "proved",
   "theorems": [
    "C117_scheme",
    "C117_forecast",
    "C117_advection_refuted"
   ],
   "note": "Exact real arithmetic. The claim that forecasts approach the carried field is refuted by C117_advection_refuted (finding in DESIGN.md)."
  },
  {
   "property": "C118",
   "status": "proved",
   "theorems": [
    "C118_kuramoto_scheme",
    "C118_burgers_sum",
    "C118_kuramoto_sum"
   ],
   "note": "Exact real arithmetic."
  },
  {
   "property": "C119",
   "status": "proved",
   "theorems": [
    "C119_burgers",
    "C119_kuramoto"
   ],
   "note": "Exact real arithmetic. Existence of smooth solutions is not claimed; the example for kuramoto is a constant solution, no other periodic one has a closed form. The order in time of rk2 and rk4 does not show: the step is at most a multiple of h^2."
  },
  {
   "property": "C120",
   "status": "proved",
   "theorems": [
    "C120_functions_replaced",
    "C120_order_independent",
    "C120_order_dependent",
    "C120_order_refuted",
    "C120_cache",
    "C120_docstring_refuted"
   ],
   "note": "The condition on the names is necessary: C120_order_refuted. C120_docstring_refuted: the documented place of the time tag is wrong (findings in DESIGN.md)."
  },
  {
   "property": "C121",
   "status": "proved",
   "theorems": [
    "C121_coupled",
    "C121_means",
    "C121_order_zero",
    "C121_exchange",
    "C121_closure_refuted"
   ],
   "note": "The expectation that averages left in an equation are needed is refuted by C121_closure_refuted (finding in DESIGN.md)."
  },
  {
   "property": "C122",
   "status": "proved",
   "theorems": [
    "C122_expression",
    "C122_trend",
    "C122_step",
    "C122_leapfrog",
    "C122_forecast",
    "C122_diffusion",
    "C122_solution",
    "C122_sum_refuted",
    "C122_leapfrog_refuted"
   ],
   "note": "Exact conservation of the sum and exact reversibility of leapfrog are refuted in double precision (C122_sum_refuted, C122_leapfrog_refuted)."
  },
  {
   "property": "C123",
   "status": "proved",
   "theorems": [
    "C123_tangent",
    "C123_burgers",
    "C123_exact_refuted"
   ],
   "note": "Exact arithmetic. That the result is the tangent linear forecast for some h is refuted (C123_exact_refuted)."
  },
  {
   "property": "C124",
   "status": "proved",
   "theorems": [
    "C124_tangent_class",
    "C124_burgers"
   ],
   "note": "Exact arithmetic; no exogenous function; right-hand sides are polynomials (natural powers). The names of the perturbations must not occur in the equations."
  },
  {
   "property": "C125",
   "status": "proved",
   "theorems": [
    "C125_any_order",
    "C125_from_equations",
    "C125_frozen",
    "C125_edit_ignored",
    "C125_appended",
    "C125_repair_refuted",
    "C125_retried",
    "C125_written",
    "C125_rename_refuted",
    "C125_assign",
    "C125_assign_refuted"
   ],
   "note": "The sets of a system are not changed in place; a cached list of Meta objects is represented by the set it comes from. The mixture of two systems is given property by property (C125_assign); the stronger claims on repair, rename and assign are refuted with witnesses."
  },
  {
   "property": "C126",
   "status": "proved",
   "theorems": [
    "C126_affine",
    "C126_small",
    "C126_burgers",
    "C126_matrix",
    "C126_matrix_refuted",
    "C126_mean_refuted"
   ],
   "note": "Over the reals. The statistics are np.mean and np.cov over the members. matrix_refuted and mean_refuted give witnesses."
  },
  {
   "property": "C127",
   "status": "proved",
   "theorems": [
    "C127_reachable",
    "C127_iteration",
    "C127_exhausted",
    "C127_iteration_ends_refuted",
    "C127_index",
    "C127_reads",
    "C127_constructor",
    "C127_snapshot",
    "C127_shared",
    "C127_attributes",
    "C127_attributes_refuted",
    "C127_text",
    "C127_text_functions",
    "C127_text_refuted"
   ],
   "note": "Slices in system[..] are not modelled; str of a sympy expression is an arbitrary function. iteration_ends_refuted, attributes_refuted and text_refuted give witnesses."
  }
 ]
}