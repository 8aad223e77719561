# What `Print Assumptions` lists for each theorem

Generated by tools/assumptions.py from a build; theorems with the same list are grouped.

## Closed under the global context (no axioms)

258 theorems: C02_garch_recursion, C02_gjr_recursion, C02_no_lookahead, C02_defined, C08_returns_last_acceptable, C09_garch_history, C09_garch_refit_is_none, C09_gjr_every_call, C09_failure_keeps_parameters, C09_zero_mean, C09_start_length, C09_refit_is_idempotent, C13_forecast_empty, C13_forecast_causal, C14_contiguous_ok, C14_reads_contiguous_block, C19_returns_the_last_acceptable_point, C19_independent_of_the_likelihood, C20_success_is_final_dcc, C20_success_is_final_ccc, C20_dcc_marginals_are_the_submodels, C20_estimated_submodels_are_reused, C20_ccc_reports_the_solver_vector, C20_ccc_objective_ignores_its_arguments, C25_single_firm_aggregate, C25_single_firm_zero_equity, C26_accepts, C26_rejects, C26_integers_rejected, C27_columnwise, C27_errors, C27_independent_of_other_firms, C28_shape_mismatch, C31_errors, C34_covariance_is_frozen_at_first_use, C34_estimates_only_use_the_first_matrix, C34_repeated_calls_agree, C35_length_mismatch, C40_flag_ignored, C40_overflow, C40_overflow_only, C43_truncated, C43_float_029, C44_shape_mismatch, C48_list_direction_ignored, C48_shape_errors, C48_price_impact_price_unchecked, C48_empty, C49_errors, C49_stubs, C50_too_few_levels, C50_wrong_dimensions, C50_few_price_levels, C50_value, C50_only_levels_1_3_5, C50_ask_is_bid, C51_shape_mismatch, C56_unknown_method, C56_data_unchanged, C56_from_successful_run, C56_no_success, C56_flag, C56_flag_never_reset, C56_stale_success, C56_unknown_transparent, C56_history_independent, C56_shape_mismatch, C56_new_object, C57_partition, C57_height_limit, C57_right_never_empty, C57_string_split, C57_string_children, C57_string_order, C59_ranges_cover_once, C59_schedule_independent, C59_no_write_race, C60_forest_size, C60_indices_overlap, C60_indices_disjoint_otherwise, C60_depends_on_workers, C60_more_workers_than_trees, C60_distinct_engine_seeds, C61_pushes_are_permutations, C62_complete_data_consistent, C62_missing_routed_apart, C62_missing_split_value, C63_kth_tree_sample, C63_documented_size_refuted, C64_offset, C64_large_seeds_equivalent, C64_negative_seeds, C64_divisor_seeds_equivalent, C65_answers, C65_number_of_reads, C65_loaded_once, C65_single_instance, C66_odd_rejected, C66_window_too_wide, C71_partition, C71_accepts, C71_accumulated_life, C72_computations_raise, C73_unsort, C73_lossless, C73_reshape, C74_mutation, C74_old_value_irrelevant, C74_idempotent, C74_scalar_raises_after_mutation, C75_every_history, C75_broken, C75_packages, C75_no_partial_modules, C76_siblings_same_attribute, C76_one_attribute_per_depth, C77_estimates_do_not_influence_each_other, C77_repeating_an_estimate, C77_failed_estimation_raises, C77_series_must_match, C82_lookup, C82_all_or_nothing, C85_growth_defaults_to_zero, C85_extra_parameters_ignored, C85_too_few_parameters, C87_nan_state, C87_no_states, C87_columns, C87_table, C90_ewma, C90_garch, C90_gjr, C90_contiguous, C90_short_inputs, C90_reversed, C90_float32, C90_bounds_check, C90_dimensions, C91_read_item, C91_some_item_unterminated, C91_fixed_length_codes, C91_terminated, C91_equal_strings_differ_refuted, C92_dcc, C92_dcc_short, C92_lrmes, C92_lrmes_one_column, C93_only_linalgerror, C93_not_square, C93_upper_triangle_ignored, C96_refines, C96_arguments, C96_conversion, C96_no_attributes, C96_readable, C96_frame_memory, C96_last_row_undefined, C97_shape, C97_keyerror, C97_only_numeric_and_object, C97_none_is_empty, C97_other_dtypes_ignored, C97_kinds_commute, C97_exclusion, C97_no_usable_columns, C97_non_ascii, C97_scores, C98_refines, C98_last_shock_unused, C98_wrong_rows, C98_few_shocks, C98_missing_shocks, C98_reused_factor, C98_negative_horizon, C98_row_of_shocks, C99_loan_payoff, C99_face_value, C99_fftsmooth, C99_odd_count, C99_window, C99_wide_window, C99_sort_smooth, C99_scenarios, C99_computation, C99_no_nan, C99_matlab_accepts, C99_python_accepts, C99_row_of_parameters, C99_default_shocks, C99_single_cohort, C99_single_rounding, C99_single_negative_horizon, C99_single_solution, C99_lookup, C100_paths, C100_results, C101_central_state, C101_no_states, C101_fit, C101_nan_volatility, C101_table, C101_simulation, C101_no_valuation, C101_paths, C103_alternatives, C106_refines, C106_wrong_rows, C106_few_shocks, C106_row_of_shocks, C106_no_paths, C106_negative_horizon, C106_unused_shocks, C106_drawn_shocks, C109_same_systemic_scenarios, C118_returns_a_table, C118_own_error, C118_single_instance, C118_no_second_object, C118_reads_at_most_accesses, C118_reads_after_store, C118_settled, C118_first_access_alone_settles, C118_uninterrupted, C118_one_read_refuted, C118_own_table_refuted, C119_complete_fit, C119_nothing_changed_before_success, C119_next_fit, C119_next_fit_same, C119_after_success_flag, C119_success_without_estimates_refuted, C119_gjr_recovers, C119_restart, C119_complete_ccc, C119_ccc_restart, C119_ccc_success_without_estimates_refuted, C119_complete_dcc, C119_dcc_restart, C119_dcc_success_without_estimates_refuted, C119_complete_pin, C119_pin_interrupted, C119_pin_again, C119_pin_stale_success_refuted, C123_float64_unchanged, C124_same_arguments, C124_enters_valuation, C127_read_back, C127_top_header, C127_names, C127_alignment, C127_words_refused, C127_any_case, C127_simulation_table, C132_nested, C132_horizons_cut_the_same_days, C132_longer_runs_continue, C134_only_order, C146_forest_is_tame

## `ClassicalDedekindReals.sig_forall_dec`, `FunctionalExtensionality.functional_extensionality_dep`

11 theorems: C06_weights_decrease, C18_clipping_is_inactive_inside, C33_rounds_half_away_from_zero, C42_only_full_default, C100_ceil, C100_is_integer, C115_stata_unique, C115_only_gamma_negated_refuted, C130_long_run_level, C130_persistence, C130_persistence_refuted

## `ClassicalDedekindReals.sig_forall_dec`, `ClassicalDedekindReals.sig_not_dec`, `FunctionalExtensionality.functional_extensionality_dep`

7 theorems: C22_variances_follow_the_forecast_recursion, C105_unique, C107_start_normalised, C107_start_forgotten, C113_lost_sample_has_positive_probability, C116_documented_scaling, C130_horizon

## `ClassicalDedekindReals.sig_forall_dec`, `ClassicalDedekindReals.sig_not_dec`, `Classical_Prop.classic`, `FunctionalExtensionality.functional_extensionality_dep`

492 theorems: C01_binary64, C01_binary64_first, C01_binary64_first_gjr, C01_garch_variance_positive, C01_gjr_variance_positive, C02_garch_path, C02_gjr_path, C03_binary64_bounds_check, C03_binary64_garch, C03_binary64_gjr, C03_binary64_ewma, C03_bounds_check_same, C03_bounds_check_nan_differs, C03_garch_same_finite, C03_gjr_same_finite, C03_garch_same, C03_gjr_same, C03_ewma_same, C03_nan_refuted, C04_binary64, C04_binary64_monotone, C04_bounds_check_law, C04_bounds_check_inf, C04_bounds_check_props, C04_bounds_check_can_increase, C05_binary64, C05_ewma_closed_form, C05_ewma_causal, C06_binary64, C06_backcast_average, C06_backcast_range, C06_backcast_depends, C06_backcast_scaling, C07_binary64, C07_variance_bounds, C07_all_zero, C07_all_zero_infinite, C07_nan_residual, C08_start_is_constant, C08_constant_returns_no_start, C08_zero_returns_no_start, C08_constant_returns_zero_mean, C08_candidates_admissible, C08_candidates_are_grid, C08_argmax_refuted, C10_after_fit, C10_garch_constraints, C10_gjr_constraints, C10_sigma2_stale_refuted, C11_gaussian_loglik, C11_constant_variance_mle, C12_gjr_gamma0_is_garch, C12_leverage_adds_variance, C12_garch_sign_invariant, C12_gjr_bad_news, C13_forecast, C13_forecast_matches_variance, C14_contiguous_equals_python, C14_strided_refuted, C15_binary64_refuted, C15_conditional_correlations_in_range, C15_corner, C15_corner_series, C16_backends_agree_on_standardized_series, C16_cpp_is_python_on_rescaled_residuals, C16_first_period, C16_first_period_differs, C16_differ_when_mean_is_not_zero, C16_differ_when_variance_is_not_one, C17_bivariate_normal_loglik, C17_zero_correlation_is_the_sum_of_the_univariate_ones, C17_symmetric, C17_objective, C17_own_variances_exist, C18_two_step_loglik_is_the_bivariate_one, C19_start_is_constant_any_kind, C19_the_point, C19_admissible, C19_start_is_constant, C20_failed_submodel_makes_objective_nan, C20_failed_submodel_gives_default_start, C20_failure_is_not_noticed, C21_binary64, C21_lrmes_is_the_conditional_mean, C21_below_one, C21_order_irrelevant, C21_estimate, C21_variances_exist, C21_end_to_end, C22_binary64_refuted, C22_simulation, C22_python_and_cpp_agree, C22_forecast_recursion_is_forecast_variance, C22_corner, C23_fewer_systemic_events_for_severer_thresholds, C23_no_event_below_minus_one, C24_value, C24_increasing_in_debt, C24_increasing_in_lrmes, C24_decreasing_in_equity, C24_break_even, C24_zero_equity, C24_documented_expansion_refuted, C25_binary64_many, C25_binary64_one, C25_aggregate, C25_single_firm_aggregate_refuted, C25_single_firm_numpy, C28_bad_q, C28_nan_q, C28_value, C28_worst_days, C28_more_days, C28_empty, C29_range, C29_nan_iff, C29_q_zero, C29_constant_market, C29_single_day, C30_reorder_days, C30_affine_firm, C30_scale_market, C31_value, C31_equal_inputs, C31_between, C31_affine_invariant, C31_offsetting_slopes, C32_range_monotone_endpoints, C32_independent_of_the_routine, C32_invariant_under_scale_and_shift, C33_number_of_eigenvalues_used, C33_above_one_uses_fewer, C33_above_one_drops, C33_negative_fraction_gives_zero, C35_value, C35_zero_volume, C35_optimal, C35_scaling, C35_reorder, C36_value, C36_constant_past, C36_empty_past, C36_increasing, C36_shift_scale, C36_reorder, C37_put_call_parity, C38_no_arbitrage_bounds, C39_spot, C39_strike, C39_volatility, C40_prices, C40_solved, C40_solvable, C40_zero_spread, C40_decreasing_in_spread, C40_protection_bounds, C40_estimate, C40_bad_start, C40_domain, C41_frequencies_sum_to_one, C41_premium_is_expected_tail_loss, C41_premium_bounds, C41_antitone_in_threshold, C41_binary64, C42_nan_iff_no_tail_mass, C42_index_error, C43_same_percent, C44_binary64, C44_pct_value, C44_log_value, C44_pct_range, C44_log_range, C44_unit_free, C44_log_dominates, C45_binary64, C45_value, C45_range, C45_signed_directions, C45_directed_bounded, C46_decomposition, C46_decomposition_zero_volume, C46_undirected_triangle, C46_undirected_decomposition_refuted, C47_price_unit, C47_volume_unit, C47_reorder, C48_zero_dollar_volume, C48_cancelling_dollar_volume, C48_list_vs_array_refuted, C49_value, C49_value_regular, C49_positive, C49_locked_quote, C49_linear_in_sizes, C49_price_unit, C49_sides_agree, C50_two_levels_refuted, C50_real_value, C51_binary64, C51_value, C51_range, C51_nan_iff_empty_book, C51_antisymmetric, C51_size_unit, C51_balanced, C52_binary64, C52_probability, C52_nan_iff, C52_monotone, C52_time_unit, C52_strict_in_mu, C52_order, C53_exactly_feasible_grid_points, C53_moments_and_bounds, C53_no_start_iff, C53_all_points_iff, C54_factorizations_equal, C55_poisson_mixture, C55_same_maximisers, C56_keeps_best, C56_infinite_first_kept, C56_nan_replaced, C57_right_empty_with_missing_split, C58_binary64, C58_score_formula, C58_score_range, C58_strictly_decreasing, C58_tree_size_one, C61_score_order_independent, C61_scores_deterministic, C62_missing_refuted, C66_moving_average, C66_zero_window_returns_zeros, C66_linear, C66_ramp, C66_first_entry_ignored, C66_interior_in_range, C66_monotone, C66_edge_range_refuted, C67_face_minus_put, C67_bounds, C67_increasing_in_face, C67_increasing_in_factor, C67_scaling, C68_fair_yield, C69_solution, C69_negative_volatility, C69_negative_assets, C69_penalty_refuted, C70_settlement, C70_identities, C70_states, C70_computation, C70_balance_sheet, C71_boundary_refuted, C72_horizon, C73_stable_order, C74_residuals, C77_log_percent, C78_rates, C78_maturity, C78_homogeneous, C78_convex_in_strike_and_spot, C78_call_spread, C79_yield_unique, C79_yield_exists, C80_early_shocks_cancel, C81_mean_assets, C83_descaling, C84_odd_counts_raise, C84_few_scenarios_worthless, C85_computation, C85_balance_sheet, C85_later_shocks_ignored, C86_garch_constraint_is_stationarity, C86_gjr_constraint_is_stationarity, C86_gjr_estimates, C86_ccc_feasible_set, C86_ccc_estimates, C86_dcc_feasible_set, C86_dcc_estimates, C87_central_state, C87_shipped, C88_default_probability, C88_default_decreasing, C88_fit, C88_consistent, C88_negative_assets, C89_capital_ratio, C89_credit_spread, C89_simulated, C93_succeeds_iff_positive_definite, C93_result_is_the_factor, C93_perfect_correlation, C94_quantile_exists, C94_thresholds, C94_nan_probability_accepted, C94_returns_have_given_covariance, C94_row_norms, C94_default_iff, C94_number_of_defaults, C94_joint_defaults_monotone, C94_mean_number_of_defaults, C94_covariance_matrix_changes_probabilities, C95_draws, C95_triangular_law, C95_symmetric, C95_bad_probability, C95_bad_correlations, C95_outcome, C95_single_bank_index_error, C97_zero_trees, C99_merton_residuals, C99_feasible_residuals, C99_nan, C100_grids, C100_exact, C100_binary64, C100_binary64_paths, C101_nan_states, C101_same_roots, C101_same_bank, C101_exact_valuation, C101_shipped, C102_weight, C102_between, C102_affine, C102_on_grid_refuted, C102_below, C102_above, C102_nan, C102_zero_rate, C102_zero_rate_result, C103_exact, C104_dcc_objective, C104_dcc, C104_dcc_is_the_likelihood, C104_ccc, C105_option_prices, C105_expected_loss, C105_equity, C105_loan_payoff, C105_fair_yield, C105_expectation, C107_inverts, C107_unique, C107_every_outcome, C107_replay_sample, C107_inside_bounds_unclipped, C107_start_refuted, C108_srisk_is_the_mean_shortfall, C108_single_firm_aggregate, C108_many_firms, C108_system, C110_log_returns_are_converted_again, C110_documented_log_returns_refuted, C110_large_loss_becomes_nan, C111_share_of_informed_trades, C111_average_of_the_two_sides, C111_documented_sum_refuted, C111_spread_is_pin_times_range, C112_buys_and_sells_exchanged, C112_days_reordered, C112_starts_reordered, C112_samples_joined, C112_estimator_not_symmetric_refuted, C113_eho_nan_on_the_edge, C113_lk_nan_without_buys, C113_lk_nan_without_sells, C113_lk_correct_on_the_edge, C113_lk_correct_on_the_sell_edge, C113_lk_impossible_sample, C113_start_on_the_edge, C113_no_buys_at_all, C114_bounds_scale, C114_start_scales, C114_objective_scales, C114_unit_free_refuted, C114_start_outside_box, C114_long_run_floor, C114_long_run_floor_gjr, C115_stata_equivalent, C115_box_is_leverage, C116_needs_root_volumes, C116_dollar_volume_scaling, C116_dollar_volume_refuted, C117_distribution_free, C117_bound_attained, C117_normal_insolvency, C117_ranks_banks, C120_eho_not_finite, C120_eho_every_start, C120_lk_finite, C120_lk_every_start, C121_correlations_unit_free, C121_correlations_symmetric, C121_ccc_likelihood_units, C121_dcc_objective_units, C121_same_preference, C122_balance_sheet, C122_grid_rate_refuted, C122_replaced_points, C122_program, C123_integer_garch, C123_integer_gjr, C123_likelihood_refuted, C123_likelihood_gjr_refuted, C123_integer_forecast, C123_cpp_ignores_residuals, C123_cpp_negative_residual, C124_exact, C124_states, C125_quoted_spread, C125_trade_measures, C125_log_quoted_spread_refuted, C126_variances, C126_ewma, C128_mean, C128_mes, C128_standard_deviation, C128_zscore, C128_constant_history, C128_mes_range_refuted, C128_constant_history_refuted, C129_accuracy, C129_parity, C129_bounds, C129_positive_refuted, C130_market_volatility, C130_systemic_share, C131_monte_carlo_error, C131_convergence, C131_number_of_events, C131_estimate, C132_update, C132_thresholds, C133_normaliser, C133_two, C133_mean_path, C133_close, C133_ratio, C134_distance, C134_extreme, C134_half, C135_loglikelihood, C135_model, C135_comparison, C136_largest_share, C136_at_least_the_largest_assets, C136_rotation, C136_order, C136_one_factor, C136_uncorrelated, C137_difference, C137_difference_exact, C137_backcast, C137_shock, C137_loglikelihood, C137_small_upper_refuted, C137_ewma, C138_srisk, C138_sign, C138_aggregate, C138_ses, C139_cpp, C139_range, C139_python, C140_slope, C140_slope_difference, C140_depth_difference, C141_fitted, C141_firm, C141_same_events, C141_system, C141_convergence, C142_loglikelihood, C142_comparison, C143_weighted_average, C143_forgetting, C143_python, C144_ccc_loglikelihood, C144_comparison, C145_two_step, C145_comparison, C146_same_trees, C146_score, C146_ranking, C146_schedules, C147_put_is_blsprice, C147_accuracy, C147_zero_spread, C147_protection
