# What Print Assumptions lists

Generated by `tools/assumptions.py` from a build. Every axiom is one of Coq's standard library.

## Closed under the global context

C19_roundtrip_binary64_refuted, C25_triangular, C56_binary64_refuted, C59_any_schedule, C61_particles, C62_ito_step

## `ClassicalDedekindReals.sig_forall_dec`

C62_switching_step, C74_kept

## `ClassicalDedekindReals.sig_forall_dec`, `FunctionalExtensionality.functional_extensionality_dep`

C01_partition_paste_roundtrip, C01_repartition, C02_partition_pieces, C02_repartition, C02_sample_partition, C03_paste_concatenates, C03_paste_nothing, C04_forwards_empty, C04_forwards_never_raises, C04_forwards_terminates, C04_forwards_well_formed, C06_choice_vectors, C06_discrete_chain_stochastic, C08_batches_deliver_all_points, C09_batches_in_bounds_refuted, C09_bound_times_batches, C109_error, C10_ppp_points, C115_single_refuted, C11_forwards_from_stationary, C11_get_stat_positive, C11_nonsingular_iff_unique, C11_stat_system, C12_get_ev, C12_get_mode, C12_sample_param, C12_trial_generator, C13_update_statistics, C14_full_horizon_refuted, C14_time_after_last_jump_lost, C14_versus_occupation, C15_gibbs_draw, C15_sample_param_draws, C17_call, C17_call_beyond_horizon, C17_negative_time_wraps, C17_state_unique, C18_est_stat, C18_est_stat_sums_to_one, C20_uniform_threshold, C28_covariance_continued, C28_doctest_count_wrong, C28_mean_and_covariance, C28_mean_continued, C28_sample_covariance_refuted, C31_brace, C39_bridge_moments, C39_conditional_law, C39_conditioning, C39_wiener_moments, C41_reflect, C41_reflect_empty_refuted, C41_reverse, C41_reverse_rejects, C44_flip, C45_bounds, C45_seed_kept, C45_seed_unique, C45_unique, C47_enclosed, C47_sound, C47_total, C48_denorm_norm, C48_norm_denorm, C48_pinned, C49_encloses, C49_infimum, C49_infimum1, C49_infimum2, C49_infimum3_refuted, C49_ou, C49_ou1, C49_ou2, C49_ou3, C54_arrays_refuted, C56_split_paste, C63_buffer, C63_clip, C63_regimes_refuted, C64_asymmetric_refuted, C64_initial, C70_forwards_competing_clocks, C84_eq, C84_eq_paths, C87_forwards, C87_forwards_only, C87_generator, C87_stationary, C89_visits, C98_box, C98_missing, C98_positive, C98_step_refuted, C98_touch, C98_wrap

## `ClassicalDedekindReals.sig_forall_dec`, `ClassicalDedekindReals.sig_not_dec`, `FunctionalExtensionality.functional_extensionality_dep`

C106_error, C106_levels, C107_gradients, C108_bridge, C108_hidden, C108_ito, C108_params, C23_inside, C24_two_bounds_ignored, C32_cdf_value, C34_outside, C34_seedless, C36_inner_bound, C39_brownian_bridge, C39_wiener, C41_pivot, C41_pivot_moments, C41_seeded_bessel, C48_ito, C48_switching, C50_refuted, C50_sound, C51_positive, C57_anchor_law, C67_wald, C69_n_trans_cdf_total, C78_hidden_refined, C78_hidden_value, C78_ito_refined, C78_ito_value, C89_stationary, C92_lengths_iff, C92_recursion, C93_bound_refuted, C94_edge_loop, C98_louis, C99_insert, C99_spread_refuted

## `ClassicalDedekindReals.sig_forall_dec`, `ClassicalDedekindReals.sig_not_dec`, `Classical_Prop.classic`, `FunctionalExtensionality.functional_extensionality_dep`

C05_backwards, C05_bridge_endpoints, C05_bridge_every_outcome, C05_bridge_well_formed, C05_zero_uniform_refuted, C06_bridge_never_raises, C06_bridge_terminates, C07_mutate_keeps_boundaries, C07_proposal_keeps_states, C07_proposal_without_conditioning, C101_layer, C102_iteration, C102_target_mass, C103_edges_loop, C103_fair, C103_first, C103_min_loop, C103_mirrored, C103_refuted, C104_history, C104_ito_reached, C104_ito_refuted, C104_posterior, C104_refines, C104_schedule, C105_general, C105_ou12, C105_ou12_twice, C105_ou3, C105_samplers, C106_instance, C107_instances, C110_density, C110_exists, C111_semigroup, C112_loglik, C112_loglik_is_log_density_refuted, C112_posterior, C114_flips, C114_joint_flips, C114_loss, C114_mean, C114_portkey_bound, C114_same_outcome, C115_same_ito_refuted, C115_same_switching_refuted, C115_same_update_refuted, C115_single_redraw_refuted, C116_ito_instance, C116_objective_instance, C116_switching_instance, C116_switching_objective_instance, C15_conjugacy, C15_loglik_value, C16_mode_maximises, C20_budget_exhaustion, C20_twocoin_joint_law, C20_twocoin_law, C20_uniform_log_threshold, C21_acceptance_value, C21_hidden_update_balance, C21_twocoin_balance, C21_twocoin_joint_balance, C22_budget_error, C22_no_portkey_no_escape, C22_sure_portkey_one_flip, C22_twocoin_contract, C22_twocoin_joint_contract, C23_const_of_reals, C23_jacobian, C23_proposal, C23_reals_of_const, C24_bounded_proposal_refuted, C25_covariance, C25_hidden_learns, C25_proposal, C25_schedule_mjp, C25_schedule_mv, C25_schedule_rw, C25_step_bound_mjp, C25_step_bound_rw, C26_first_window, C26_single_window_refuted, C26_windows_overlap, C27_ito_update_params_raises, C27_scalar_proposal_raises, C29_break_points, C29_lower_hull, C29_upper_hull, C29_upper_hull_any_breaks, C30_envelope_quantile, C30_zero_draw_refuted, C31_run, C31_step, C32_cdf, C32_outside_refuted, C32_ppf_increasing, C32_ppf_inverse, C32_ppf_left_inverse, C33_brownbr_min, C33_brownbr_min_any_draw, C33_layerbr_min, C34_brackets, C34_decides, C34_monotone, C34_terminates, C35_brackets, C35_decides, C35_limit, C35_terminates, C36_bessel, C36_bessel_terminates, C36_brown, C36_brown_terminates, C36_range, C36_refuted, C37_exhaust, C37_inside, C37_layer_zero, C37_nested, C37_pow_default, C37_pow_exhaust, C37_pow_inside, C37_pow_nested, C37_pow_nonpositive, C37_pow_quantile, C37_pow_zero, C37_quantile, C38_anchor, C38_edges, C38_layer, C40_both_ends_at_infimum_refuted, C40_layered_bridge, C42_fill, C43_dual_refuted, C43_kept, C43_lost_refuted, C45_call, C45_history, C45_one_request, C45_seed, C45_seed_call, C46_one_sided_reached, C46_one_sided_refuted, C46_raw, C46_within, C48_raw_inside, C48_raw_outside_refuted, C51_ou, C51_ou1, C51_ou2, C51_ou3, C51_zero_ends_refuted, C52_refuted, C53_cir, C53_cir_lamperti, C53_ou, C53_ou1, C53_ou2, C53_ou_lamperti, C54_refuted, C55_decision, C55_estimate, C55_log, C55_seed_decision, C55_seed_estimate, C55_seed_flat_refuted, C55_seed_infinite, C55_seed_log, C57_sample_aug, C57_seeds, C58_sample_posterior, C58_update_hidden, C59_local, C59_own_intervals_only, C60_decomposes, C60_full, C60_local, C60_observed, C60_value, C61_ito, C61_sizes, C61_slow_refuted, C62_ito_refuted, C62_switching, C64_m_step, C65_ito_balance_without_precoin, C65_ito_precoin_balance_iff, C65_ito_precoin_refuted, C65_switching_balance, C66_generator_not_used, C66_reproducible_refuted, C67_seeded_min, C68_long_series, C68_short_series_raises, C69_n_trans_inverse_cdf, C69_n_trans_law, C71_sampler, C71_seed, C72_assertion, C72_decision, C73_default_refuted, C73_optimal, C74_particles, C74_thinning_refuted, C75_ito, C75_switching, C76_local, C76_objective_local, C76_objective_sum, C76_sum, C77_hidden, C77_ito_bridge, C77_ito_params, C77_params, C79_chain, C80_bridge, C80_bridge_local, C80_params, C81_intervals, C81_value, C82_cir, C82_cir_refuted, C82_ou, C83_path, C85_ito, C85_switching, C85_switching_start, C86_bridge, C86_chain, C86_ou, C86_raw, C86_skeleton, C87_backwards, C87_backwards_only, C87_bridge, C87_bridge_only, C87_proposal, C88_coin_instance, C88_estimate_instance, C91_cir, C91_nan_refuted, C91_ou, C91_ou_normal, C91_switching, C93_bet_refuted, C93_bet_shifted, C93_sig, C94_bessel, C94_bessel_outer, C94_bessel_range, C94_brown, C94_brown_outer, C97_instance, C97_ito_infinite_refuted, C97_switching_infinite_refuted, C98_ito, C98_regimes_refuted, C98_switching, C98_switching_rows

## `ClassicalDedekindReals.sig_forall_dec`, `ClassicalDedekindReals.sig_not_dec`, `ClassicalEpsilon.constructive_indefinite_description`, `Classical_Prop.classic`, `FunctionalExtensionality.functional_extensionality_dep`

C100_bessel, C100_bridge, C100_bridges_independent, C100_joint, C100_joint_bridge, C101_exact, C102_full_hull, C102_full_hull_limit, C103_edges, C103_edges_kept, C103_min, C106_bridge, C106_coin, C107_dual_coin, C107_hidden, C107_ito, C107_params, C109_bridges, C109_hidden, C109_one_generator, C109_params, C109_prior_refuted, C110_params, C111_only_uniform, C111_preserved_refuted, C111_reversible, C111_uncut, C111_uniform, C112_path_law, C112_path_law_stationary, C113_backwards, C113_bridge, C113_given_end, C113_mutate, C113_reversible, C113_uncut, C114_sampler, C116_ito, C116_ito_mstep, C116_ito_variance, C116_objective, C116_switching, C116_switching_mstep, C116_switching_objective, C116_switching_variance, C15_gibbs_law, C15_sample_param_law, C16_ev_is_mean, C16_gibbs_mean, C20_barker_law, C20_sampler_law, C21_sampler_balance, C88_batches_refuted, C88_batches_values, C88_estimator_unbiased, C88_law_additive, C88_law_monotone, C88_law_range, C88_law_unique, C88_one_batch, C88_ppp, C88_ppp_line, C88_thinning, C89_backwards, C89_bridge, C89_forwards, C89_forwards_stationary, C90_backwards_stationary_iff, C90_mutate_law, C90_mutate_single, C90_stationary_refuted, C92_law, C94_edge_accepted, C94_edge_law, C95_bridge, C95_bridge_moments, C95_wiener, C96_min_law, C96_reflection, C96_symmetric, C96_time_law, C97_ito, C97_ito_square, C97_segment, C97_segment_square, C97_switching, C97_switching_square, C99_law

## `ClassicalDedekindReals.sig_forall_dec`, `ClassicalDedekindReals.sig_not_dec`, `ClassicalEpsilon.constructive_indefinite_description`, `Classical_Prop.classic`, `Description.constructive_definite_description`, `FunctionalExtensionality.functional_extensionality_dep`

C102_adaptive
