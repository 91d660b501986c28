(** Generated by tools/manifest.py: the assumptions of every property theorem. *)
From Verif Require Import Props_Stream Props_Emp Props_Shrink Props_Moment Props_Linalg Props_Robust Props_Mismatch Props_Shape Props_Keyed Props_Dyn Props_Asm Props_AsmReal Props_Block Props_SchurCond Props_Score Props_Assess Props_Cond Props_CondReal Props_Recommend Props_RecommendReal Props_Heap Props_Corr Props_Size Props_Float Props_Sym Props_SymShift Props_Params Props_Defaults Props_Improper Props_Forget Props_Range Props_Research Props_ResearchBlocks Props_Canonical Props_Godambe Props_SymCond Props_Gamma Props_OneVar Props_Incomplete Props_Counts Props_Marginal Props_Metric Props_Judges Props_Oos Props_OosReal Props_OosRun Props_Ranks Props_RanksWitness Props_Spiked Props_SpikedVar Props_SpikedTruth Props_KeyedRead Props_KeyedCorr Props_NpdLoop Props_ParamTable Props_CondPickle Props_CondCorr Props_Report Props_FloatShrink Props_Train Props_TrainRun Props_Families Props_Power Props_PowerReal Props_PowerRun Props_GodambeRun Props_Structured Props_TrainSet Props_Tuning Props_TuningReal Props_PowerNoise Props_Missing Props_MissingCov Props_MissingAll Props_CondScore Props_FloatCorr Props_RangeBlocks Props_Nonexp Props_Invert Props_Masking Props_AffineScore Props_Bias Props_Consistency Props_Drift Props_Fresh Props_Walk Props_FloatShrunk Props_FloatCorrShrink Props_BiasDiag Props_BiasBlocks Props_Elo Props_EloRounds Props_EloPool Props_EloBest.
Print Assumptions C01_batch_and_stream_agree.
Print Assumptions C01_batch_is_rows_one_at_a_time.
Print Assumptions C01_accepted_batch_as_calls.
Print Assumptions C02_fit_forgets.
Print Assumptions C03_diff_is_differencing.
Print Assumptions C03_diff_is_differencing_with_exceptions.
Print Assumptions C04_checkpoint_and_resume.
Print Assumptions C06_pickle_and_resume.
Print Assumptions C05_checkpoint_diff_refuted.
Print Assumptions C05_resumed_misses_one_difference.
Print Assumptions C05_set_state_keeps_baseline.
Print Assumptions C07_counts_and_fitted_attributes.
Print Assumptions C08_shape_refuted_short.
Print Assumptions C08_shape_refuted_grow.
Print Assumptions C08_shape_refuted_block.
Print Assumptions C08_mismatch_rejected.
Print Assumptions C09_failed_fit_refuted.
Print Assumptions C09_failed_fit_refuted_witness.
Print Assumptions C09_failed_partial_fit_harmless.
Print Assumptions C10_exception_keeps_prefix.
Print Assumptions C10_failing_row_moves_baseline.
Print Assumptions C11_parameters_frozen.
Print Assumptions C14_empirical_is_population_covariance.
Print Assumptions C15_empirical_ignores_order.
Print Assumptions C16_ewa_closed_form.
Print Assumptions C16_ewa_closed_form_explicit.
Print Assumptions C16_ewa_equals_empirical_during_burn_in.
Print Assumptions C17_burn_in_is_clamped_ceiling.
Print Assumptions C17_burn_in_bounds.
Print Assumptions C17_burn_in_antitone.
Print Assumptions C17_zero_rate_raises.
Print Assumptions C18_empirical_psd.
Print Assumptions C18_ewa_psd.
Print Assumptions C19_empirical_mean_in_range.
Print Assumptions C19_ewa_mean_in_range.
Print Assumptions C20_ewa_affine_equivariance.
Print Assumptions C20_empirical_affine_equivariance.
Print Assumptions C20_ewa_translation_invariant.
Print Assumptions C21_ewa_marginal.
Print Assumptions C21_empirical_marginal.
Print Assumptions C24_correlations_bounded.
Print Assumptions C25_correlation_diagonal_below_one.
Print Assumptions C23_empirical_finite.
Print Assumptions C23_ewa_finite.
Print Assumptions C26_ledoit_wolf_convex_shrinkage.
Print Assumptions C18_ledoit_wolf_psd.
Print Assumptions C23_ledoit_wolf_finite.
Print Assumptions C27_oas_convex_shrinkage.
Print Assumptions C18_oas_psd.
Print Assumptions C23_oas_finite.
Print Assumptions C28_shrunk_identity.
Print Assumptions C18_shrunk_identity_psd.
Print Assumptions C29_shrunk_constant_correlation.
Print Assumptions C30_constant_correlation_psd.
Print Assumptions C30_constant_correlation_not_psd_in_general.
Print Assumptions C23_shrunk_finite.
Print Assumptions C32_diagonal_closed_form.
Print Assumptions C31_diagonal_translation.
Print Assumptions C31_diagonal_constant_stream.
Print Assumptions C18_diagonal_psd.
Print Assumptions C19_diagonal_mean_in_range.
Print Assumptions C23_diagonal_finite.
Print Assumptions C33_quadrants_add_up.
Print Assumptions C33_partial_moments_is_plain.
Print Assumptions C33_partial_moments_vs_ewa.
Print Assumptions C39_dcc_composition.
Print Assumptions C18_dcc_psd.
Print Assumptions C23_dcc_finite.
Print Assumptions C40_factor_dominates.
Print Assumptions C18_factor_psd.
Print Assumptions C23_factor_finite.
Print Assumptions C41_make_pos_def.
Print Assumptions C41_make_pos_def_idempotent.
Print Assumptions C42_nearest_pos_def.
Print Assumptions C42_pos_def_unchanged.
Print Assumptions C38_geodesic_step.
Print Assumptions C38_geodesic_endpoints.
Print Assumptions C34_huber_equals_ewa_on_inliers.
Print Assumptions C34_huber_bounded_influence.
Print Assumptions C34_huber_unbounded_when_singular.
Print Assumptions C35_rate_in_range.
Print Assumptions C35_equal_rates_is_ewa.
Print Assumptions C36_tyler_shape.
Print Assumptions C36_tyler_scale_invariant.
Print Assumptions C37_tyler_zero_first_observation_refuted.
Print Assumptions C38_geodesic_estimator.
Print Assumptions C38_geodesic_burn_in_is_ewa.
Print Assumptions C18_huber_psd.
Print Assumptions C18_adaptive_psd.
Print Assumptions C18_geodesic_psd.
Print Assumptions C23_huber_finite.
Print Assumptions C23_adaptive_finite.
Print Assumptions C23_geodesic_finite.
Print Assumptions C23_tyler_finite.
Print Assumptions C37_tyler_nonzero_first_observation.
Print Assumptions C08_block_rule.
Print Assumptions C08_block_surplus_ignored.
Print Assumptions C22_covariance_is_exactly_symmetric.
Print Assumptions C22_any_class_any_state.
Print Assumptions C50_fixed_universe_refines_positional.
Print Assumptions C50_dict_order_and_extra_keys_ignored.
Print Assumptions C51_ffill_uses_last_seen_value.
Print Assumptions C51_zero_uses_zero.
Print Assumptions C51_mean_uses_running_mean.
Print Assumptions C52_selection_is_submatrix.
Print Assumptions C52_unknown_name_raises.
Print Assumptions C52_no_observation_raises.
Print Assumptions C52_selection_for_registered_classes.
Print Assumptions C57_prototype_and_adapter_do_not_interfere.
Print Assumptions C57_prototype_is_never_fitted.
Print Assumptions C57_clone_is_unfitted.
Print Assumptions C57_kwargs_only_with_a_class.
Print Assumptions C57_late_set_params_reaches_new_universes.
Print Assumptions C57_fixed_universe_keeps_its_parameters.
Print Assumptions C53_at_most_max_universes.
Print Assumptions C53_no_stale_universe.
Print Assumptions C53_dropped_only_when_stale_or_full.
Print Assumptions C54_universes_are_faithful.
Print Assumptions C55_current_key_set_tracked_iff.
Print Assumptions C55_tracked_when_room.
Print Assumptions C55_tracking_fails_forever.
Print Assumptions C56_assembled_matrix.
Print Assumptions C56_known_is_determined.
Print Assumptions C56_default_keys.
Print Assumptions C56_nothing_to_read_before_data.
Print Assumptions C56_readable_for_registered_classes.
Print Assumptions C56_duplicate_query_names.
Print Assumptions C56_reported_matrix.
Print Assumptions C44_blocks_partition.
Print Assumptions C44_reported_slices.
Print Assumptions C43_schur_linear.
Print Assumptions C43_gamma_one.
Print Assumptions C43_schur_geodesic.
Print Assumptions C43_nonpositive_blocks.
Print Assumptions C45_block_is_schur_zero.
Print Assumptions C45_block_covariance.
Print Assumptions C46_schur_ledoit_wolf.
Print Assumptions C18_schur_psd.
Print Assumptions C18_block_psd.
Print Assumptions C18_schur_lw_psd.
Print Assumptions C47_schur_conditional.
Print Assumptions C47_no_error.
Print Assumptions C47_single_block.
Print Assumptions C66_precision_is_pseudo_inverse.
Print Assumptions C66_only_LinAlgError_is_caught.
Print Assumptions C66_last_resort.
Print Assumptions C66_unfitted_precision.
Print Assumptions C67_mahalanobis.
Print Assumptions C67_single_row.
Print Assumptions C67_score.
Print Assumptions C67_score_is_assessor_score.
Print Assumptions C68_empirical_has_the_highest_training_score.
Print Assumptions C60_estimator_lookup.
Print Assumptions C60_assessor_lookup.
Print Assumptions C61_usable.
Print Assumptions C61_unneeded_input_is_ignored.
Print Assumptions C60_assessor_parameters.
Print Assumptions C61_missing_input.
Print Assumptions C61_exceptions_occur.
Print Assumptions C62_frobenius.
Print Assumptions C62_variogram.
Print Assumptions C62_zero_truth.
Print Assumptions C63_gmv_is_portfolio_second_moment.
Print Assumptions C63_gmv_scale_invariant.
Print Assumptions C63_gmv_best_at_second_moment.
Print Assumptions C64_sum_over_blocks.
Print Assumptions C64_one_block.
Print Assumptions C64_block_diagonal.
Print Assumptions C64_unusual_block_sizes.
Print Assumptions C65_gamma_one.
Print Assumptions C65_gamma_zero.
Print Assumptions C65_gamma_zero_blocks.
Print Assumptions C65_no_blocks.
Print Assumptions C69_loglik_is_proper.
Print Assumptions C70_stein.
Print Assumptions C48_composition.
Print Assumptions C48_succeeds.
Print Assumptions C48_batches.
Print Assumptions C48_fit_forgets.
Print Assumptions C48_fit_needs_2d.
Print Assumptions C48_bad_vol_rejected.
Print Assumptions C48_templates_untouched.
Print Assumptions C48_forecast_before_data.
Print Assumptions C48_forecast_estimator.
Print Assumptions C48_forecast_skater.
Print Assumptions C48_unfitted.
Print Assumptions C48_closed_form.
Print Assumptions C48_entries_bounded.
Print Assumptions C48_ewa_ewa.
Print Assumptions C48_ewa_residuals.
Print Assumptions C49_same_location.
Print Assumptions C49_not_a_special_case.
Print Assumptions C71_rejected_row_half_absorbed.
Print Assumptions C72_correlation_not_psd.
Print Assumptions C48_not_psd.
Print Assumptions C58_walk_terminates.
Print Assumptions C58_suggest.
Print Assumptions C58_order.
Print Assumptions C59_top_three.
Print Assumptions C59_first.
Print Assumptions C59_ranking.
Print Assumptions C73_features.
Print Assumptions C73_ranges.
Print Assumptions C73_shift_invariant.
Print Assumptions C73_order_invariant.
Print Assumptions C73_suggest_invariant.
Print Assumptions C59_first_real.
Print Assumptions C59_ranking_real.
Print Assumptions C59_both_occur.
Print Assumptions C12_classes.
Print Assumptions C12_polite_programs.
Print Assumptions C12_any_writes.
Print Assumptions C12_lists_are_copied.
Print Assumptions C13_location_is_shared.
Print Assumptions C13_block_location_is_a_copy.
Print Assumptions C12_reused_buffer.
Print Assumptions C12_reused_buffer_empirical.
Print Assumptions C13_write_into_location.
Print Assumptions C72_correlation_nearly_psd.
Print Assumptions C72_correlation_not_psd_empirical.
Print Assumptions C18_partial_moments_psd.
Print Assumptions C23_partial_moments_finite.
Print Assumptions C23_schur_finite.
Print Assumptions C23_block_finite.
Print Assumptions C23_schur_lw_finite.
Print Assumptions C18_tyler_nearly_psd.
Print Assumptions C74_state_does_not_grow.
Print Assumptions C74_pickle_does_not_grow.
Print Assumptions C74_diagonal_state.
Print Assumptions C74_factor_state.
Print Assumptions C74_block_state.
Print Assumptions C22_binary64_covariance_is_exactly_symmetric.
Print Assumptions C75_empirical_mean_stays_in_range.
Print Assumptions C75_burn_in_mean_stays_in_range.
Print Assumptions C75_ewa_mean_leaves_the_range.
Print Assumptions C76_empirical_variance_never_negative.
Print Assumptions C76_ewa_variance_never_negative.
Print Assumptions C76_diagonal_variance_never_negative.
Print Assumptions C76_rounded_covariance_can_fail_psd.
Print Assumptions C77_empirical_stays_finite.
Print Assumptions C77_ewa_stays_finite.
Print Assumptions C77_diagonal_stays_finite.
Print Assumptions C77_overflow_is_silent.
Print Assumptions C78_empirical_accuracy.
Print Assumptions C78_ewa_accuracy_uniform_in_time.
Print Assumptions C78_diagonal_accuracy_uniform_in_time.
Print Assumptions C80_ewa_follows.
Print Assumptions C80_empirical_follows.
Print Assumptions C80_ledoit_wolf_follows.
Print Assumptions C80_oas_follows.
Print Assumptions C80_shrunk_identity_follows.
Print Assumptions C80_huber_follows.
Print Assumptions C80_adaptive_follows.
Print Assumptions C80_geodesic_follows.
Print Assumptions C80_partial_moments_follows.
Print Assumptions C79_order_empirical.
Print Assumptions C79_order_ewa.
Print Assumptions C79_order_ledoit_wolf.
Print Assumptions C79_order_oas.
Print Assumptions C79_order_huber.
Print Assumptions C79_order_adaptive.
Print Assumptions C79_order_geodesic.
Print Assumptions C79_order_partial_moments.
Print Assumptions C79_order_shrunk.
Print Assumptions C79_order_diagonal.
Print Assumptions C79_order_dcc.
Print Assumptions C79_order_factor.
Print Assumptions C79_order_tyler.
Print Assumptions C79_order_block.
Print Assumptions C79_order_schur.
Print Assumptions C79_order_schur_ledoit_wolf.
Print Assumptions C79_block_order_matters.
Print Assumptions C79_schur_order_matters.
Print Assumptions C81_differences_any_class.
Print Assumptions C81_empirical_shift.
Print Assumptions C81_ewa_shift.
Print Assumptions C81_ledoit_wolf_shift.
Print Assumptions C81_oas_shift.
Print Assumptions C81_huber_shift.
Print Assumptions C81_adaptive_shift.
Print Assumptions C81_geodesic_shift.
Print Assumptions C81_shrunk_shift.
Print Assumptions C81_block_shift.
Print Assumptions C81_schur_shift.
Print Assumptions C81_schur_ledoit_wolf_shift.
Print Assumptions C81_diagonal_remembers_origin.
Print Assumptions C81_partial_moments_shift_matters.
Print Assumptions C81_dcc_shift_matters.
Print Assumptions C81_factor_shift_matters.
Print Assumptions C81_tyler_shift_matters.
Print Assumptions C82_registry.
Print Assumptions C82_constructor.
Print Assumptions C82_get_params_total.
Print Assumptions C82_set_params.
Print Assumptions C82_unknown_name_silent.
Print Assumptions C82_property_rejected.
Print Assumptions C82_roundtrip.
Print Assumptions C82_clone.
Print Assumptions C82_typed_constructor.
Print Assumptions C82_typed_set_params.
Print Assumptions C82_diff_flag.
Print Assumptions C82_repr.
Print Assumptions C83_finite.
Print Assumptions C83_psd.
Print Assumptions C83_tyler.
Print Assumptions C83_schur_conditional.
Print Assumptions C84_schur_maximiser.
Print Assumptions C84_increases_with_gamma.
Print Assumptions C84_improper.
Print Assumptions C84_block_pseudo.
Print Assumptions C85_ewa_exact.
Print Assumptions C85_ewa_forgets.
Print Assumptions C85_diagonal_forgets.
Print Assumptions C85_empirical_remembers.
Print Assumptions C86_ewa_rate.
Print Assumptions C86_diagonal_rate.
Print Assumptions C86_shrunk_delta.
Print Assumptions C87_unique_maximiser.
Print Assumptions C87_definite_above_threshold.
Print Assumptions C87_threshold_monotone.
Print Assumptions C87_threshold_ends.
Print Assumptions C89_optimal.
Print Assumptions C89_monotone.
Print Assumptions C89_ends.
Print Assumptions C89_too_few_samples.
Print Assumptions C89_simulated.
Print Assumptions C89_simulated_minimum.
Print Assumptions C89_parametrisation.
Print Assumptions C88_recovers_every_law.
Print Assumptions C88_unique_maximiser.
Print Assumptions C88_full_trust.
Print Assumptions C88_two_blocks.
Print Assumptions C88_singular_leading_block_raises.
Print Assumptions C88_outcome.
Print Assumptions C88_definite_candidates_are_scored.
Print Assumptions C90_correlation.
Print Assumptions C90_definite.
Print Assumptions C90_threshold.
Print Assumptions C90_is_spd.
Print Assumptions C90_overestimates.
Print Assumptions C90_scalar_first_block.
Print Assumptions C90_prediction_wrong.
Print Assumptions C90_no_threshold.
Print Assumptions C91_score_is_quadratic.
Print Assumptions C91_score_of_a_sample.
Print Assumptions C91_full_trust.
Print Assumptions C91_divergence.
Print Assumptions C91_ratio.
Print Assumptions C91_full_trust_ranks_by_divergence.
Print Assumptions C79_order_schur_conditional.
Print Assumptions C81_schur_conditional_shift.
Print Assumptions C79_schur_conditional_order_matters.
Print Assumptions C92_reads_do_not_disturb.
Print Assumptions C92_none_until_read.
Print Assumptions C92_last_read_ledoit_wolf.
Print Assumptions C92_last_read_conditional.
Print Assumptions C92_copies_forget.
Print Assumptions C92_unfitted.
Print Assumptions C92_value_ledoit_wolf.
Print Assumptions C92_value_conditional.
Print Assumptions C92_stale.
Print Assumptions C08_scalar_is_broadcast.
Print Assumptions C08_one_variable_grows.
Print Assumptions C08_one_variable_refused.
Print Assumptions C08_one_variable_factor.
Print Assumptions C08_one_variable_burn.
Print Assumptions C93_detected_at_the_next_row.
Print Assumptions C93_detected_schur_ledoit_wolf.
Print Assumptions C93_detected_factor.
Print Assumptions C93_block_refuses_to_load.
Print Assumptions C94_clamped_blocks.
Print Assumptions C94_clamped_above.
Print Assumptions C94_schur_no_blocks.
Print Assumptions C94_schur_lw_no_blocks.
Print Assumptions C94_factor_negative.
Print Assumptions C21_columns_bitwise.
Print Assumptions C21_columns_bitwise_distinct.
Print Assumptions C21_location_bitwise.
Print Assumptions C70_few_rows.
Print Assumptions C95_divergence.
Print Assumptions C95_better_first.
Print Assumptions C95_loglik_is_the_assessor.
Print Assumptions C95_loglik_is_divergence.
Print Assumptions C95_loglik_verdict.
Print Assumptions C95_stein_is_the_assessor.
Print Assumptions C95_stein_one_variable.
Print Assumptions C95_stein_is_divergence.
Print Assumptions C95_stein_powerless.
Print Assumptions C95_frobenius.
Print Assumptions C95_calibration.
Print Assumptions C95_calibration_is_improper.
Print Assumptions C95_min_variance_is_the_assessor.
Print Assumptions C95_projections.
Print Assumptions C95_no_projections.
Print Assumptions C95_full_projections.
Print Assumptions C95_random_projection.
Print Assumptions C95_random_projection_is_1d.
Print Assumptions C95_project_pd.
Print Assumptions C95_block_pseudo_is_the_assessor.
Print Assumptions C95_floor_hides_small_eigenvalues.
Print Assumptions C95_schur.
Print Assumptions C95_schur_gamma_one.
Print Assumptions C95_schur_is_the_assessor.
Print Assumptions C95_one_block_is_not_the_likelihood.
Print Assumptions C96_zero_step.
Print Assumptions C96_fixed.
Print Assumptions C96_picks.
Print Assumptions C96_picks_see_training_rows_only.
Print Assumptions C96_sees_the_windows_only.
Print Assumptions C96_any_failure_raises.
Print Assumptions C96_constant_pick.
Print Assumptions C96_oracle.
Print Assumptions C96_too_short.
Print Assumptions C96_completes.
Print Assumptions C97_ranks_bijection.
Print Assumptions C97_rank.
Print Assumptions C97_winner_is_rank_one.
Print Assumptions C97_best_fixed.
Print Assumptions C97_trial.
Print Assumptions C97_trial_fails_with_the_recommender.
Print Assumptions C97_run.
Print Assumptions C97_run_fit_error.
Print Assumptions C97_mean_skips_failures.
Print Assumptions C97_average_ranks.
Print Assumptions C97_run_completes.
Print Assumptions C98_divergence_along_a_line.
Print Assumptions C98_estimates.
Print Assumptions C98_gap_undefined.
Print Assumptions C98_gap_is_score_difference.
Print Assumptions C98_full_trust_gap.
Print Assumptions C98_population_gap.
Print Assumptions C98_quadform.
Print Assumptions C98_quadform_no_observations.
Print Assumptions C98_gradient_counts_pairs_twice.
Print Assumptions C98_variance_overstated.
Print Assumptions C98_spiked.
Print Assumptions C98_noise_pair.
Print Assumptions C98_prediction.
Print Assumptions C99_dict_of_dicts.
Print Assumptions C99_covariance_reads.
Print Assumptions C99_fixed_covariance.
Print Assumptions C99_unit_diagonal.
Print Assumptions C99_learn_many.
Print Assumptions C99_correlation.
Print Assumptions C99_correlation_not_psd.
Print Assumptions C42_loop_ends_with_margin.
Print Assumptions C82_default_table.
Print Assumptions C93_zero_count.
Print Assumptions C100_pickle_and_resume.
Print Assumptions C100_pickle_skater.
Print Assumptions C100_clone_carries_no_data.
Print Assumptions C100_set_params_waits_for_fit.
Print Assumptions C100_unfitted.
Print Assumptions C100_fit_uses_new_templates.
Print Assumptions C100_correlation_closed_form.
Print Assumptions C100_correlation_bounded.
Print Assumptions C100_correlation_exceeds_one.
Print Assumptions C96_report.
Print Assumptions C96_report_too_short.
Print Assumptions C97_nothing_to_choose_from.
Print Assumptions C95_unusual_block_sizes.
Print Assumptions C77_oas_stays_finite.
Print Assumptions C77_shrunk_stays_finite.
Print Assumptions C77_ledoit_wolf_stays_finite.
Print Assumptions C76_shrinkage_variance_never_negative.
Print Assumptions C77_shrinkage_overflow_is_silent.
Print Assumptions C101_training_never_sees_the_held_out_family.
Print Assumptions C101_best_fixed_never_sees_the_held_out_family.
Print Assumptions C101_held_out_entry.
Print Assumptions C101_training_set.
Print Assumptions C101_picks_are_registered.
Print Assumptions C101_generate_mirrors_training.
Print Assumptions C101_generate_stops_at_a_failure.
Print Assumptions C101_nothing_to_do.
Print Assumptions C101_trial.
Print Assumptions C101_label.
Print Assumptions C101_all_fail.
Print Assumptions C101_leave_one_family_out.
Print Assumptions C101_leave_one_ensemble_out.
Print Assumptions C101_unknown_pick.
Print Assumptions C101_completes.
Print Assumptions C101_report.
Print Assumptions C101_report_wins.
Print Assumptions C101_export_keeps_only_pure_nodes.
Print Assumptions C101_export_loses_the_floor.
Print Assumptions C101_scenarios.
Print Assumptions C102_families.
Print Assumptions C102_heavy_sample.
Print Assumptions C102_scenario_truths.
Print Assumptions C102_heavy_families.
Print Assumptions C103_schur_power.
Print Assumptions C103_pseudo_likelihood_power.
Print Assumptions C103_repeated_block_sizes.
Print Assumptions C103_proof_high_dim.
Print Assumptions C103_projection_power.
Print Assumptions C103_run.
Print Assumptions C103_perturb.
Print Assumptions C103_perturb_at_one.
Print Assumptions C103_perturbed_contest.
Print Assumptions C103_tail_contest.
Print Assumptions C103_group_contest.
Print Assumptions C103_schur_completes.
Print Assumptions C103_groups_must_divide.
Print Assumptions C103_schur_full_trust.
Print Assumptions C103_pseudo_completes.
Print Assumptions C103_single_block.
Print Assumptions C103_clean_regime_bulk.
Print Assumptions C103_high_dim_completes.
Print Assumptions C103_full_projection.
Print Assumptions C103_projection_completes.
Print Assumptions C103_nothing_counted.
Print Assumptions C103_run_completes.
Print Assumptions C103_powers.
Print Assumptions C104_gap_is_score_difference.
Print Assumptions C104_expected_gap.
Print Assumptions C104_montecarlo.
Print Assumptions C104_discrimination.
Print Assumptions C104_full_trust_power.
Print Assumptions C104_degenerate.
Print Assumptions C104_summary_range.
Print Assumptions C104_sample_pair.
Print Assumptions C104_blocks_of_four.
Print Assumptions C104_structured_power.
Print Assumptions C104_structured_completes.
Print Assumptions C104_groups_must_divide.
Print Assumptions C104_structured_full_trust.
Print Assumptions C101_contaminated.
Print Assumptions C101_standardised.
Print Assumptions C105_shrunk_read_time.
Print Assumptions C105_schur_read_time.
Print Assumptions C105_schur_conditional_read_time.
Print Assumptions C105_shrunk_rate.
Print Assumptions C105_schur_rate.
Print Assumptions C105_schur_conditional_rate.
Print Assumptions C105_schur_lw_rate.
Print Assumptions C105_huber_rate.
Print Assumptions C105_huber_cutoff_burn_in.
Print Assumptions C105_schur_lw_blocks_burn_in.
Print Assumptions C105_schur_lw_switch.
Print Assumptions C105_schur_lw_from_one_block.
Print Assumptions C103_noise_levels.
Print Assumptions C106_extended_nan.
Print Assumptions C106_extended_infinite.
Print Assumptions C106_float_nan.
Print Assumptions C106_float_infinite.
Print Assumptions C106_location.
Print Assumptions C106_covariance.
Print Assumptions C106_diagonal.
Print Assumptions C106_pooled_lost.
Print Assumptions C106_lost_after_burn_in.
Print Assumptions C106_difference.
Print Assumptions C106_no_error.
Print Assumptions C66_conditional_precision.
Print Assumptions C67_conditional_mahalanobis.
Print Assumptions C67_conditional_score_is_assessor_score.
Print Assumptions C67_conditional_score.
Print Assumptions C67_conditional_score_of_stream.
Print Assumptions C100_score_unbounded.
Print Assumptions C100_default_score_unbounded.
Print Assumptions C107_accuracy.
Print Assumptions C107_diagonal.
Print Assumptions C107_overflow.
Print Assumptions C107_negative_variance.
Print Assumptions C107_ewa.
Print Assumptions C107_empirical.
Print Assumptions C107_overflow_reached.
Print Assumptions C86_schur_gamma_safe.
Print Assumptions C86_schur_gamma_unsafe.
Print Assumptions C41_make_pos_def_nonexpansive.
Print Assumptions C41_any_lapack.
Print Assumptions C85_shrunk_forgets.
Print Assumptions C85_schur_forgets.
Print Assumptions C85_block_forgets.
Print Assumptions C108_ewa_null_directions.
Print Assumptions C108_empirical_null_directions.
Print Assumptions C108_few_rows.
Print Assumptions C108_never_worse_conditioned.
Print Assumptions C108_shrunk_conditioned.
Print Assumptions C108_oas_conditioned.
Print Assumptions C109_empirical_masking.
Print Assumptions C109_ewa_masking.
Print Assumptions C109_before_and_after.
Print Assumptions C110_change_of_variables.
Print Assumptions C110_similarity.
Print Assumptions C110_ewa.
Print Assumptions C110_empirical.
Print Assumptions C110_similarity_instances.
Print Assumptions C111_ewa.
Print Assumptions C111_empirical.
Print Assumptions C111_shrunk_identity.
Print Assumptions C111_limits.
Print Assumptions C112_empirical_consistent.
Print Assumptions C112_ewa_floor.
Print Assumptions C113_ewa.
Print Assumptions C113_empirical.
Print Assumptions C113_ewa_level_shift.
Print Assumptions C113_empirical_level_shift.
Print Assumptions C113_ewa_trend.
Print Assumptions C113_empirical_trend.
Print Assumptions C113_trend_limits.
Print Assumptions C114_fresh_mahalanobis.
Print Assumptions C114_truth_scores_best.
Print Assumptions C115_ewa_levels.
Print Assumptions C115_empirical_levels.
Print Assumptions C115_differences.
Print Assumptions C115_limits.
Print Assumptions C78_shrunk_accuracy_uniform_in_time.
Print Assumptions C78_shrinkage_location_accuracy.
Print Assumptions C107_shrinkage.
Print Assumptions C111_diagonal.
Print Assumptions C111_dcc_variances.
Print Assumptions C111_diagonal_limits.
Print Assumptions C111_blocks.
Print Assumptions C111_effective_sample.
Print Assumptions C116_expected_points.
Print Assumptions C116_zero_sum.
Print Assumptions C116_ratings.
Print Assumptions C116_points_conserved.
Print Assumptions C116_malformed_key.
Print Assumptions C116_three_names.
Print Assumptions C116_round.
Print Assumptions C116_order_matters.
Print Assumptions C116_history_can_be_rated.
Print Assumptions C116_files_are_pooled.
Print Assumptions C116_pool_can_be_rated.
Print Assumptions C116_best_and_worst.
Print Assumptions C116_round_is_transitive.
