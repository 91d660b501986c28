{
 "claims": [
  {
   "property": "C01",
   "status": "proved",
   "theorems": [
    "C01_batch_and_stream_agree",
    "C01_batch_is_rows_one_at_a_time",
    "C01_accepted_batch_as_calls"
   ],
   "note": ""
  },
  {
   "property": "C02",
   "status": "proved",
   "theorems": [
    "C02_fit_forgets"
   ],
   "note": ""
  },
  {
   "property": "C03",
   "status": "proved",
   "theorems": [
    "C03_diff_is_differencing",
    "C03_diff_is_differencing_with_exceptions"
   ],
   "note": ""
  },
  {
   "property": "C04",
   "status": "proved",
   "theorems": [
    "C04_checkpoint_and_resume"
   ],
   "note": ""
  },
  {
   "property": "C05",
   "status": "proved",
   "theorems": [
    "C05_checkpoint_diff_refuted",
    "C05_resumed_misses_one_difference",
    "C05_set_state_keeps_baseline"
   ],
   "note": "C04's guarantee is refuted for diff=True; exact behaviour proved"
  },
  {
   "property": "C06",
   "status": "proved",
   "theorems": [
    "C06_pickle_and_resume"
   ],
   "note": ""
  },
  {
   "property": "C07",
   "status": "proved",
   "theorems": [
    "C07_counts_and_fitted_attributes"
   ],
   "note": ""
  },
  {
   "property": "C08",
   "status": "proved",
   "theorems": [
    "C08_shape_refuted_short",
    "C08_shape_refuted_grow",
    "C08_shape_refuted_block",
    "C08_mismatch_rejected",
    "C08_block_rule",
    "C08_block_surplus_ignored",
    "C08_scalar_is_broadcast",
    "C08_one_variable_grows",
    "C08_one_variable_refused",
    "C08_one_variable_factor",
    "C08_one_variable_burn"
   ],
   "note": "three refutations of full shape checking, and the exact rule for every class"
  },
  {
   "property": "C09",
   "status": "proved",
   "theorems": [
    "C09_failed_fit_refuted",
    "C09_failed_fit_refuted_witness",
    "C09_failed_partial_fit_harmless"
   ],
   "note": "the expectation 'a failed call changes nothing' is refuted for fit"
  },
  {
   "property": "C10",
   "status": "proved",
   "theorems": [
    "C10_exception_keeps_prefix",
    "C10_failing_row_moves_baseline"
   ],
   "note": ""
  },
  {
   "property": "C11",
   "status": "proved",
   "theorems": [
    "C11_parameters_frozen"
   ],
   "note": "also Empirical, Block, Adaptive; params_frozen lists the classes"
  },
  {
   "property": "C12",
   "status": "proved",
   "theorems": [
    "C12_classes",
    "C12_polite_programs",
    "C12_any_writes",
    "C12_lists_are_copied",
    "C12_reused_buffer",
    "C12_reused_buffer_empirical"
   ],
   "note": "sharing refuted for diff=True (C12_reused_buffer); heap model of ndarrays in HeapModel.v"
  },
  {
   "property": "C13",
   "status": "proved",
   "theorems": [
    "C13_location_is_shared",
    "C13_block_location_is_a_copy",
    "C13_write_into_location"
   ],
   "note": "location_ sharing proved (C13_location_is_shared), so the naive guarantee is refuted for it"
  },
  {
   "property": "C14",
   "status": "proved",
   "theorems": [
    "C14_empirical_is_population_covariance"
   ],
   "note": ""
  },
  {
   "property": "C15",
   "status": "proved",
   "theorems": [
    "C15_empirical_ignores_order"
   ],
   "note": ""
  },
  {
   "property": "C16",
   "status": "proved",
   "theorems": [
    "C16_ewa_closed_form",
    "C16_ewa_closed_form_explicit",
    "C16_ewa_equals_empirical_during_burn_in"
   ],
   "note": ""
  },
  {
   "property": "C17",
   "status": "proved",
   "theorems": [
    "C17_burn_in_is_clamped_ceiling",
    "C17_burn_in_bounds",
    "C17_burn_in_antitone",
    "C17_zero_rate_raises"
   ],
   "note": ""
  },
  {
   "property": "C18",
   "status": "proved",
   "theorems": [
    "C18_empirical_psd",
    "C18_ewa_psd",
    "C18_ledoit_wolf_psd",
    "C18_oas_psd",
    "C18_shrunk_identity_psd",
    "C18_diagonal_psd",
    "C18_dcc_psd",
    "C18_factor_psd",
    "C18_huber_psd",
    "C18_adaptive_psd",
    "C18_geodesic_psd",
    "C18_schur_psd",
    "C18_block_psd",
    "C18_schur_lw_psd",
    "C18_partial_moments_psd",
    "C18_tyler_nearly_psd"
   ],
   "note": ""
  },
  {
   "property": "C19",
   "status": "proved",
   "theorems": [
    "C19_empirical_mean_in_range",
    "C19_ewa_mean_in_range",
    "C19_diagonal_mean_in_range"
   ],
   "note": ""
  },
  {
   "property": "C20",
   "status": "proved",
   "theorems": [
    "C20_ewa_affine_equivariance",
    "C20_empirical_affine_equivariance",
    "C20_ewa_translation_invariant"
   ],
   "note": ""
  },
  {
   "property": "C21",
   "status": "proved",
   "theorems": [
    "C21_ewa_marginal",
    "C21_empirical_marginal",
    "C21_columns_bitwise",
    "C21_columns_bitwise_distinct",
    "C21_location_bitwise"
   ],
   "note": ""
  },
  {
   "property": "C22",
   "status": "proved",
   "theorems": [
    "C22_covariance_is_exactly_symmetric",
    "C22_any_class_any_state",
    "C22_binary64_covariance_is_exactly_symmetric"
   ],
   "note": ""
  },
  {
   "property": "C23",
   "status": "proved",
   "theorems": [
    "C23_empirical_finite",
    "C23_ewa_finite",
    "C23_ledoit_wolf_finite",
    "C23_oas_finite",
    "C23_shrunk_finite",
    "C23_diagonal_finite",
    "C23_dcc_finite",
    "C23_factor_finite",
    "C23_huber_finite",
    "C23_adaptive_finite",
    "C23_geodesic_finite",
    "C23_tyler_finite",
    "C23_partial_moments_finite",
    "C23_schur_finite",
    "C23_block_finite",
    "C23_schur_lw_finite"
   ],
   "note": ""
  },
  {
   "property": "C24",
   "status": "proved",
   "theorems": [
    "C24_correlations_bounded"
   ],
   "note": ""
  },
  {
   "property": "C25",
   "status": "proved",
   "theorems": [
    "C25_correlation_diagonal_below_one"
   ],
   "note": ""
  },
  {
   "property": "C26",
   "status": "proved",
   "theorems": [
    "C26_ledoit_wolf_convex_shrinkage"
   ],
   "note": ""
  },
  {
   "property": "C27",
   "status": "proved",
   "theorems": [
    "C27_oas_convex_shrinkage"
   ],
   "note": ""
  },
  {
   "property": "C28",
   "status": "proved",
   "theorems": [
    "C28_shrunk_identity"
   ],
   "note": ""
  },
  {
   "property": "C29",
   "status": "proved",
   "theorems": [
    "C29_shrunk_constant_correlation"
   ],
   "note": ""
  },
  {
   "property": "C30",
   "status": "proved",
   "theorems": [
    "C30_constant_correlation_psd",
    "C30_constant_correlation_not_psd_in_general"
   ],
   "note": ""
  },
  {
   "property": "C31",
   "status": "proved",
   "theorems": [
    "C31_diagonal_translation",
    "C31_diagonal_constant_stream"
   ],
   "note": ""
  },
  {
   "property": "C32",
   "status": "proved",
   "theorems": [
    "C32_diagonal_closed_form"
   ],
   "note": ""
  },
  {
   "property": "C33",
   "status": "proved",
   "theorems": [
    "C33_quadrants_add_up",
    "C33_partial_moments_is_plain",
    "C33_partial_moments_vs_ewa"
   ],
   "note": ""
  },
  {
   "property": "C34",
   "status": "proved",
   "theorems": [
    "C34_huber_equals_ewa_on_inliers",
    "C34_huber_bounded_influence",
    "C34_huber_unbounded_when_singular"
   ],
   "note": ""
  },
  {
   "property": "C35",
   "status": "proved",
   "theorems": [
    "C35_rate_in_range",
    "C35_equal_rates_is_ewa"
   ],
   "note": ""
  },
  {
   "property": "C36",
   "status": "proved",
   "theorems": [
    "C36_tyler_shape",
    "C36_tyler_scale_invariant"
   ],
   "note": ""
  },
  {
   "property": "C37",
   "status": "proved",
   "theorems": [
    "C37_tyler_zero_first_observation_refuted",
    "C37_tyler_nonzero_first_observation"
   ],
   "note": ""
  },
  {
   "property": "C38",
   "status": "proved",
   "theorems": [
    "C38_geodesic_step",
    "C38_geodesic_endpoints",
    "C38_geodesic_estimator",
    "C38_geodesic_burn_in_is_ewa"
   ],
   "note": ""
  },
  {
   "property": "C39",
   "status": "proved",
   "theorems": [
    "C39_dcc_composition"
   ],
   "note": ""
  },
  {
   "property": "C40",
   "status": "proved",
   "theorems": [
    "C40_factor_dominates"
   ],
   "note": ""
  },
  {
   "property": "C41",
   "status": "proved",
   "theorems": [
    "C41_make_pos_def",
    "C41_make_pos_def_idempotent",
    "C41_make_pos_def_nonexpansive",
    "C41_any_lapack"
   ],
   "note": ""
  },
  {
   "property": "C42",
   "status": "proved",
   "theorems": [
    "C42_nearest_pos_def",
    "C42_pos_def_unchanged",
    "C42_loop_ends_with_margin"
   ],
   "note": ""
  },
  {
   "property": "C43",
   "status": "proved",
   "theorems": [
    "C43_schur_linear",
    "C43_gamma_one",
    "C43_schur_geodesic",
    "C43_nonpositive_blocks"
   ],
   "note": ""
  },
  {
   "property": "C44",
   "status": "proved",
   "theorems": [
    "C44_blocks_partition",
    "C44_reported_slices"
   ],
   "note": ""
  },
  {
   "property": "C45",
   "status": "proved",
   "theorems": [
    "C45_block_is_schur_zero",
    "C45_block_covariance"
   ],
   "note": ""
  },
  {
   "property": "C46",
   "status": "proved",
   "theorems": [
    "C46_schur_ledoit_wolf"
   ],
   "note": ""
  },
  {
   "property": "C47",
   "status": "proved",
   "theorems": [
    "C47_schur_conditional",
    "C47_no_error",
    "C47_single_block"
   ],
   "note": ""
  },
  {
   "property": "C48",
   "status": "proved",
   "theorems": [
    "C48_composition",
    "C48_succeeds",
    "C48_batches",
    "C48_fit_forgets",
    "C48_fit_needs_2d",
    "C48_bad_vol_rejected",
    "C48_templates_untouched",
    "C48_forecast_before_data",
    "C48_forecast_estimator",
    "C48_forecast_skater",
    "C48_unfitted",
    "C48_closed_form",
    "C48_entries_bounded",
    "C48_ewa_ewa",
    "C48_ewa_residuals",
    "C48_not_psd"
   ],
   "note": ""
  },
  {
   "property": "C49",
   "status": "proved",
   "theorems": [
    "C49_same_location",
    "C49_not_a_special_case"
   ],
   "note": ""
  },
  {
   "property": "C50",
   "status": "proved",
   "theorems": [
    "C50_fixed_universe_refines_positional",
    "C50_dict_order_and_extra_keys_ignored"
   ],
   "note": ""
  },
  {
   "property": "C51",
   "status": "proved",
   "theorems": [
    "C51_ffill_uses_last_seen_value",
    "C51_zero_uses_zero",
    "C51_mean_uses_running_mean"
   ],
   "note": ""
  },
  {
   "property": "C52",
   "status": "proved",
   "theorems": [
    "C52_selection_is_submatrix",
    "C52_unknown_name_raises",
    "C52_no_observation_raises",
    "C52_selection_for_registered_classes"
   ],
   "note": ""
  },
  {
   "property": "C53",
   "status": "proved",
   "theorems": [
    "C53_at_most_max_universes",
    "C53_no_stale_universe",
    "C53_dropped_only_when_stale_or_full"
   ],
   "note": ""
  },
  {
   "property": "C54",
   "status": "proved",
   "theorems": [
    "C54_universes_are_faithful"
   ],
   "note": ""
  },
  {
   "property": "C55",
   "status": "proved",
   "theorems": [
    "C55_current_key_set_tracked_iff",
    "C55_tracked_when_room",
    "C55_tracking_fails_forever"
   ],
   "note": ""
  },
  {
   "property": "C56",
   "status": "proved",
   "theorems": [
    "C56_assembled_matrix",
    "C56_known_is_determined",
    "C56_default_keys",
    "C56_nothing_to_read_before_data",
    "C56_readable_for_registered_classes",
    "C56_duplicate_query_names",
    "C56_reported_matrix"
   ],
   "note": ""
  },
  {
   "property": "C57",
   "status": "proved",
   "theorems": [
    "C57_prototype_and_adapter_do_not_interfere",
    "C57_prototype_is_never_fitted",
    "C57_clone_is_unfitted",
    "C57_kwargs_only_with_a_class",
    "C57_late_set_params_reaches_new_universes",
    "C57_fixed_universe_keeps_its_parameters"
   ],
   "note": ""
  },
  {
   "property": "C58",
   "status": "proved",
   "theorems": [
    "C58_walk_terminates",
    "C58_suggest",
    "C58_order"
   ],
   "note": ""
  },
  {
   "property": "C59",
   "status": "proved",
   "theorems": [
    "C59_top_three",
    "C59_first",
    "C59_ranking",
    "C59_first_real",
    "C59_ranking_real",
    "C59_both_occur"
   ],
   "note": ""
  },
  {
   "property": "C60",
   "status": "proved",
   "theorems": [
    "C60_estimator_lookup",
    "C60_assessor_lookup",
    "C60_assessor_parameters"
   ],
   "note": ""
  },
  {
   "property": "C61",
   "status": "proved",
   "theorems": [
    "C61_usable",
    "C61_unneeded_input_is_ignored",
    "C61_missing_input",
    "C61_exceptions_occur"
   ],
   "note": ""
  },
  {
   "property": "C62",
   "status": "proved",
   "theorems": [
    "C62_frobenius",
    "C62_variogram",
    "C62_zero_truth"
   ],
   "note": ""
  },
  {
   "property": "C63",
   "status": "proved",
   "theorems": [
    "C63_gmv_is_portfolio_second_moment",
    "C63_gmv_scale_invariant",
    "C63_gmv_best_at_second_moment"
   ],
   "note": ""
  },
  {
   "property": "C64",
   "status": "proved",
   "theorems": [
    "C64_sum_over_blocks",
    "C64_one_block",
    "C64_block_diagonal",
    "C64_unusual_block_sizes"
   ],
   "note": ""
  },
  {
   "property": "C65",
   "status": "proved",
   "theorems": [
    "C65_gamma_one",
    "C65_gamma_zero",
    "C65_gamma_zero_blocks",
    "C65_no_blocks"
   ],
   "note": ""
  },
  {
   "property": "C66",
   "status": "proved",
   "theorems": [
    "C66_precision_is_pseudo_inverse",
    "C66_only_LinAlgError_is_caught",
    "C66_last_resort",
    "C66_unfitted_precision",
    "C66_conditional_precision"
   ],
   "note": ""
  },
  {
   "property": "C67",
   "status": "proved",
   "theorems": [
    "C67_mahalanobis",
    "C67_single_row",
    "C67_score",
    "C67_score_is_assessor_score",
    "C67_conditional_mahalanobis",
    "C67_conditional_score_is_assessor_score",
    "C67_conditional_score",
    "C67_conditional_score_of_stream"
   ],
   "note": ""
  },
  {
   "property": "C68",
   "status": "proved",
   "theorems": [
    "C68_empirical_has_the_highest_training_score"
   ],
   "note": ""
  },
  {
   "property": "C69",
   "status": "proved",
   "theorems": [
    "C69_loglik_is_proper"
   ],
   "note": ""
  },
  {
   "property": "C70",
   "status": "proved",
   "theorems": [
    "C70_stein",
    "C70_few_rows"
   ],
   "note": ""
  },
  {
   "property": "C71",
   "status": "proved",
   "theorems": [
    "C71_rejected_row_half_absorbed"
   ],
   "note": ""
  },
  {
   "property": "C72",
   "status": "proved",
   "theorems": [
    "C72_correlation_not_psd",
    "C72_correlation_nearly_psd",
    "C72_correlation_not_psd_empirical"
   ],
   "note": "the naive claim is refuted by C72_correlation_not_psd; the exact bound is proved"
  },
  {
   "property": "C73",
   "status": "proved",
   "theorems": [
    "C73_features",
    "C73_ranges",
    "C73_shift_invariant",
    "C73_order_invariant",
    "C73_suggest_invariant"
   ],
   "note": ""
  },
  {
   "property": "C74",
   "status": "proved",
   "theorems": [
    "C74_state_does_not_grow",
    "C74_pickle_does_not_grow",
    "C74_diagonal_state",
    "C74_factor_state",
    "C74_block_state"
   ],
   "note": ""
  },
  {
   "property": "C75",
   "status": "proved",
   "theorems": [
    "C75_empirical_mean_stays_in_range",
    "C75_burn_in_mean_stays_in_range",
    "C75_ewa_mean_leaves_the_range"
   ],
   "note": ""
  },
  {
   "property": "C76",
   "status": "proved",
   "theorems": [
    "C76_empirical_variance_never_negative",
    "C76_ewa_variance_never_negative",
    "C76_diagonal_variance_never_negative",
    "C76_rounded_covariance_can_fail_psd",
    "C76_shrinkage_variance_never_negative"
   ],
   "note": ""
  },
  {
   "property": "C77",
   "status": "proved",
   "theorems": [
    "C77_empirical_stays_finite",
    "C77_ewa_stays_finite",
    "C77_diagonal_stays_finite",
    "C77_overflow_is_silent",
    "C77_oas_stays_finite",
    "C77_shrunk_stays_finite",
    "C77_ledoit_wolf_stays_finite",
    "C77_shrinkage_overflow_is_silent"
   ],
   "note": ""
  },
  {
   "property": "C78",
   "status": "proved",
   "theorems": [
    "C78_empirical_accuracy",
    "C78_ewa_accuracy_uniform_in_time",
    "C78_diagonal_accuracy_uniform_in_time",
    "C78_shrunk_accuracy_uniform_in_time",
    "C78_shrinkage_location_accuracy"
   ],
   "note": ""
  },
  {
   "property": "C79",
   "status": "proved",
   "theorems": [
    "C79_order_empirical",
    "C79_order_ewa",
    "C79_order_ledoit_wolf",
    "C79_order_oas",
    "C79_order_huber",
    "C79_order_adaptive",
    "C79_order_geodesic",
    "C79_order_partial_moments",
    "C79_order_shrunk",
    "C79_order_diagonal",
    "C79_order_dcc",
    "C79_order_factor",
    "C79_order_tyler",
    "C79_order_block",
    "C79_order_schur",
    "C79_order_schur_ledoit_wolf",
    "C79_block_order_matters",
    "C79_schur_order_matters",
    "C79_order_schur_conditional",
    "C79_schur_conditional_order_matters"
   ],
   "note": ""
  },
  {
   "property": "C80",
   "status": "proved",
   "theorems": [
    "C80_ewa_follows",
    "C80_empirical_follows",
    "C80_ledoit_wolf_follows",
    "C80_oas_follows",
    "C80_shrunk_identity_follows",
    "C80_huber_follows",
    "C80_adaptive_follows",
    "C80_geodesic_follows",
    "C80_partial_moments_follows"
   ],
   "note": ""
  },
  {
   "property": "C81",
   "status": "proved",
   "theorems": [
    "C81_differences_any_class",
    "C81_empirical_shift",
    "C81_ewa_shift",
    "C81_ledoit_wolf_shift",
    "C81_oas_shift",
    "C81_huber_shift",
    "C81_adaptive_shift",
    "C81_geodesic_shift",
    "C81_shrunk_shift",
    "C81_block_shift",
    "C81_schur_shift",
    "C81_schur_ledoit_wolf_shift",
    "C81_diagonal_remembers_origin",
    "C81_partial_moments_shift_matters",
    "C81_dcc_shift_matters",
    "C81_factor_shift_matters",
    "C81_tyler_shift_matters",
    "C81_schur_conditional_shift"
   ],
   "note": ""
  },
  {
   "property": "C82",
   "status": "proved",
   "theorems": [
    "C82_registry",
    "C82_constructor",
    "C82_get_params_total",
    "C82_set_params",
    "C82_unknown_name_silent",
    "C82_property_rejected",
    "C82_roundtrip",
    "C82_clone",
    "C82_typed_constructor",
    "C82_typed_set_params",
    "C82_diff_flag",
    "C82_repr",
    "C82_default_table"
   ],
   "note": ""
  },
  {
   "property": "C83",
   "status": "proved",
   "theorems": [
    "C83_finite",
    "C83_psd",
    "C83_tyler",
    "C83_schur_conditional"
   ],
   "note": ""
  },
  {
   "property": "C84",
   "status": "proved",
   "theorems": [
    "C84_schur_maximiser",
    "C84_increases_with_gamma",
    "C84_improper",
    "C84_block_pseudo"
   ],
   "note": ""
  },
  {
   "property": "C85",
   "status": "proved",
   "theorems": [
    "C85_ewa_exact",
    "C85_ewa_forgets",
    "C85_diagonal_forgets",
    "C85_empirical_remembers",
    "C85_shrunk_forgets",
    "C85_schur_forgets",
    "C85_block_forgets"
   ],
   "note": ""
  },
  {
   "property": "C86",
   "status": "proved",
   "theorems": [
    "C86_ewa_rate",
    "C86_diagonal_rate",
    "C86_shrunk_delta",
    "C86_schur_gamma_safe",
    "C86_schur_gamma_unsafe"
   ],
   "note": ""
  },
  {
   "property": "C87",
   "status": "proved",
   "theorems": [
    "C87_unique_maximiser",
    "C87_definite_above_threshold",
    "C87_threshold_monotone",
    "C87_threshold_ends"
   ],
   "note": ""
  },
  {
   "property": "C88",
   "status": "proved",
   "theorems": [
    "C88_recovers_every_law",
    "C88_unique_maximiser",
    "C88_full_trust",
    "C88_two_blocks",
    "C88_singular_leading_block_raises",
    "C88_outcome",
    "C88_definite_candidates_are_scored"
   ],
   "note": "'the closed form attains the maximum' is refuted when a leading block is singular (C88_singular_witness)"
  },
  {
   "property": "C89",
   "status": "proved",
   "theorems": [
    "C89_optimal",
    "C89_monotone",
    "C89_ends",
    "C89_too_few_samples",
    "C89_simulated",
    "C89_simulated_minimum",
    "C89_parametrisation"
   ],
   "note": ""
  },
  {
   "property": "C90",
   "status": "proved",
   "theorems": [
    "C90_correlation",
    "C90_definite",
    "C90_threshold",
    "C90_is_spd",
    "C90_overestimates",
    "C90_scalar_first_block",
    "C90_prediction_wrong",
    "C90_no_threshold"
   ],
   "note": "the script's canonical_corr2 is refuted as an estimate of rho^2 (C90_prediction_wrong, C90_no_threshold)"
  },
  {
   "property": "C91",
   "status": "proved",
   "theorems": [
    "C91_score_is_quadratic",
    "C91_score_of_a_sample",
    "C91_full_trust",
    "C91_divergence",
    "C91_ratio",
    "C91_full_trust_ranks_by_divergence"
   ],
   "note": ""
  },
  {
   "property": "C92",
   "status": "proved",
   "theorems": [
    "C92_reads_do_not_disturb",
    "C92_none_until_read",
    "C92_last_read_ledoit_wolf",
    "C92_last_read_conditional",
    "C92_copies_forget",
    "C92_unfitted",
    "C92_value_ledoit_wolf",
    "C92_value_conditional",
    "C92_stale"
   ],
   "note": ""
  },
  {
   "property": "C93",
   "status": "proved",
   "theorems": [
    "C93_detected_at_the_next_row",
    "C93_detected_schur_ledoit_wolf",
    "C93_detected_factor",
    "C93_block_refuses_to_load",
    "C93_zero_count"
   ],
   "note": ""
  },
  {
   "property": "C94",
   "status": "proved",
   "theorems": [
    "C94_clamped_blocks",
    "C94_clamped_above",
    "C94_schur_no_blocks",
    "C94_schur_lw_no_blocks",
    "C94_factor_negative"
   ],
   "note": ""
  },
  {
   "property": "C95",
   "status": "proved",
   "theorems": [
    "C95_divergence",
    "C95_better_first",
    "C95_loglik_is_the_assessor",
    "C95_loglik_is_divergence",
    "C95_loglik_verdict",
    "C95_stein_is_the_assessor",
    "C95_stein_one_variable",
    "C95_stein_is_divergence",
    "C95_stein_powerless",
    "C95_frobenius",
    "C95_calibration",
    "C95_calibration_is_improper",
    "C95_min_variance_is_the_assessor",
    "C95_projections",
    "C95_no_projections",
    "C95_full_projections",
    "C95_random_projection",
    "C95_random_projection_is_1d",
    "C95_project_pd",
    "C95_block_pseudo_is_the_assessor",
    "C95_floor_hides_small_eigenvalues",
    "C95_schur",
    "C95_schur_gamma_one",
    "C95_schur_is_the_assessor",
    "C95_one_block_is_not_the_likelihood",
    "C95_unusual_block_sizes"
   ],
   "note": "docstring claims 'block_size == p recovers the full likelihood' and 'gamma=1 is the full likelihood' hold only for condition number <= 1000: C95_one_block_is_not_the_likelihood refutes the first beyond it"
  },
  {
   "property": "C96",
   "status": "proved",
   "theorems": [
    "C96_zero_step",
    "C96_fixed",
    "C96_picks",
    "C96_picks_see_training_rows_only",
    "C96_sees_the_windows_only",
    "C96_any_failure_raises",
    "C96_constant_pick",
    "C96_oracle",
    "C96_too_short",
    "C96_completes",
    "C96_report",
    "C96_report_too_short"
   ],
   "note": ""
  },
  {
   "property": "C97",
   "status": "proved",
   "theorems": [
    "C97_ranks_bijection",
    "C97_rank",
    "C97_winner_is_rank_one",
    "C97_best_fixed",
    "C97_trial",
    "C97_trial_fails_with_the_recommender",
    "C97_run",
    "C97_run_fit_error",
    "C97_mean_skips_failures",
    "C97_average_ranks",
    "C97_run_completes",
    "C97_nothing_to_choose_from"
   ],
   "note": ""
  },
  {
   "property": "C98",
   "status": "proved",
   "theorems": [
    "C98_divergence_along_a_line",
    "C98_estimates",
    "C98_gap_undefined",
    "C98_gap_is_score_difference",
    "C98_full_trust_gap",
    "C98_population_gap",
    "C98_quadform",
    "C98_quadform_no_observations",
    "C98_gradient_counts_pairs_twice",
    "C98_variance_overstated",
    "C98_spiked",
    "C98_noise_pair",
    "C98_prediction"
   ],
   "note": "the docstring's 'gradient of D w.r.t. the symmetric S' is refuted: off-diagonal entries are doubled (C98_gradient_counts_pairs_twice), so the variance is between 1 and 4 times the true one (C98_variance_overstated)"
  },
  {
   "property": "C99",
   "status": "proved",
   "theorems": [
    "C99_dict_of_dicts",
    "C99_covariance_reads",
    "C99_fixed_covariance",
    "C99_unit_diagonal",
    "C99_learn_many",
    "C99_correlation",
    "C99_correlation_not_psd"
   ],
   "note": "'a correlation matrix is positive semidefinite' is refuted for three names by C99_correlation_not_psd (the added 1e-12 with a forced unit diagonal)"
  },
  {
   "property": "C100",
   "status": "proved",
   "theorems": [
    "C100_pickle_and_resume",
    "C100_pickle_skater",
    "C100_clone_carries_no_data",
    "C100_set_params_waits_for_fit",
    "C100_unfitted",
    "C100_fit_uses_new_templates",
    "C100_correlation_closed_form",
    "C100_correlation_bounded",
    "C100_correlation_exceeds_one",
    "C100_score_unbounded",
    "C100_default_score_unbounded"
   ],
   "note": "'correlation_ stays within [-1, 1]' is refuted by C100_correlation_exceeds_one; which template objects were shared before pickling is not modelled"
  },
  {
   "property": "C101",
   "status": "proved",
   "theorems": [
    "C101_training_never_sees_the_held_out_family",
    "C101_best_fixed_never_sees_the_held_out_family",
    "C101_held_out_entry",
    "C101_training_set",
    "C101_picks_are_registered",
    "C101_generate_mirrors_training",
    "C101_generate_stops_at_a_failure",
    "C101_nothing_to_do",
    "C101_trial",
    "C101_label",
    "C101_all_fail",
    "C101_leave_one_family_out",
    "C101_leave_one_ensemble_out",
    "C101_unknown_pick",
    "C101_completes",
    "C101_report",
    "C101_report_wins",
    "C101_export_keeps_only_pure_nodes",
    "C101_export_loses_the_floor",
    "C101_scenarios",
    "C101_contaminated",
    "C101_standardised"
   ],
   "note": ""
  },
  {
   "property": "C102",
   "status": "proved",
   "theorems": [
    "C102_families",
    "C102_heavy_sample",
    "C102_scenario_truths",
    "C102_heavy_families"
   ],
   "note": ""
  },
  {
   "property": "C103",
   "status": "proved",
   "theorems": [
    "C103_schur_power",
    "C103_pseudo_likelihood_power",
    "C103_repeated_block_sizes",
    "C103_proof_high_dim",
    "C103_projection_power",
    "C103_run",
    "C103_perturb",
    "C103_perturb_at_one",
    "C103_perturbed_contest",
    "C103_tail_contest",
    "C103_group_contest",
    "C103_schur_completes",
    "C103_groups_must_divide",
    "C103_schur_full_trust",
    "C103_pseudo_completes",
    "C103_single_block",
    "C103_clean_regime_bulk",
    "C103_high_dim_completes",
    "C103_full_projection",
    "C103_projection_completes",
    "C103_nothing_counted",
    "C103_run_completes",
    "C103_powers",
    "C103_noise_levels"
   ],
   "note": ""
  },
  {
   "property": "C104",
   "status": "proved",
   "theorems": [
    "C104_gap_is_score_difference",
    "C104_expected_gap",
    "C104_montecarlo",
    "C104_discrimination",
    "C104_full_trust_power",
    "C104_degenerate",
    "C104_summary_range",
    "C104_sample_pair",
    "C104_blocks_of_four",
    "C104_structured_power",
    "C104_structured_completes",
    "C104_groups_must_divide",
    "C104_structured_full_trust"
   ],
   "note": ""
  },
  {
   "property": "C105",
   "status": "proved",
   "theorems": [
    "C105_shrunk_read_time",
    "C105_schur_read_time",
    "C105_schur_conditional_read_time",
    "C105_shrunk_rate",
    "C105_schur_rate",
    "C105_schur_conditional_rate",
    "C105_schur_lw_rate",
    "C105_huber_rate",
    "C105_huber_cutoff_burn_in",
    "C105_schur_lw_blocks_burn_in",
    "C105_schur_lw_switch",
    "C105_schur_lw_from_one_block"
   ],
   "note": ""
  },
  {
   "property": "C106",
   "status": "proved",
   "theorems": [
    "C106_extended_nan",
    "C106_extended_infinite",
    "C106_float_nan",
    "C106_float_infinite",
    "C106_location",
    "C106_covariance",
    "C106_diagonal",
    "C106_pooled_lost",
    "C106_lost_after_burn_in",
    "C106_difference",
    "C106_no_error"
   ],
   "note": ""
  },
  {
   "property": "C107",
   "status": "proved",
   "theorems": [
    "C107_accuracy",
    "C107_diagonal",
    "C107_overflow",
    "C107_negative_variance",
    "C107_ewa",
    "C107_empirical",
    "C107_overflow_reached",
    "C107_shrinkage"
   ],
   "note": ""
  },
  {
   "property": "C108",
   "status": "proved",
   "theorems": [
    "C108_ewa_null_directions",
    "C108_empirical_null_directions",
    "C108_few_rows",
    "C108_never_worse_conditioned",
    "C108_shrunk_conditioned",
    "C108_oas_conditioned"
   ],
   "note": ""
  },
  {
   "property": "C109",
   "status": "proved",
   "theorems": [
    "C109_empirical_masking",
    "C109_ewa_masking",
    "C109_before_and_after"
   ],
   "note": ""
  },
  {
   "property": "C110",
   "status": "proved",
   "theorems": [
    "C110_change_of_variables",
    "C110_similarity",
    "C110_ewa",
    "C110_empirical",
    "C110_similarity_instances"
   ],
   "note": ""
  },
  {
   "property": "C111",
   "status": "proved",
   "theorems": [
    "C111_ewa",
    "C111_empirical",
    "C111_shrunk_identity",
    "C111_limits",
    "C111_diagonal",
    "C111_dcc_variances",
    "C111_diagonal_limits",
    "C111_blocks",
    "C111_effective_sample"
   ],
   "note": ""
  },
  {
   "property": "C112",
   "status": "proved",
   "theorems": [
    "C112_empirical_consistent",
    "C112_ewa_floor"
   ],
   "note": ""
  },
  {
   "property": "C113",
   "status": "proved",
   "theorems": [
    "C113_ewa",
    "C113_empirical",
    "C113_ewa_level_shift",
    "C113_empirical_level_shift",
    "C113_ewa_trend",
    "C113_empirical_trend",
    "C113_trend_limits"
   ],
   "note": ""
  },
  {
   "property": "C114",
   "status": "proved",
   "theorems": [
    "C114_fresh_mahalanobis",
    "C114_truth_scores_best"
   ],
   "note": ""
  },
  {
   "property": "C115",
   "status": "proved",
   "theorems": [
    "C115_ewa_levels",
    "C115_empirical_levels",
    "C115_differences",
    "C115_limits"
   ],
   "note": ""
  },
  {
   "property": "C116",
   "status": "proved",
   "theorems": [
    "C116_expected_points",
    "C116_zero_sum",
    "C116_ratings",
    "C116_points_conserved",
    "C116_malformed_key",
    "C116_three_names",
    "C116_round",
    "C116_order_matters",
    "C116_history_can_be_rated",
    "C116_files_are_pooled",
    "C116_pool_can_be_rated",
    "C116_best_and_worst",
    "C116_round_is_transitive"
   ],
   "note": ""
  }
 ]
}