{
 "claims": [
  {
   "property": "C01",
   "status": "proved",
   "theorems": [
    "C01_partition_paste_roundtrip",
    "C01_repartition"
   ],
   "note": ""
  },
  {
   "property": "C02",
   "status": "proved",
   "theorems": [
    "C02_partition_pieces",
    "C02_sample_partition",
    "C02_repartition"
   ],
   "note": ""
  },
  {
   "property": "C03",
   "status": "proved",
   "theorems": [
    "C03_paste_concatenates",
    "C03_paste_nothing"
   ],
   "note": ""
  },
  {
   "property": "C04",
   "status": "proved",
   "theorems": [
    "C04_forwards_well_formed",
    "C04_forwards_never_raises",
    "C04_forwards_terminates",
    "C04_forwards_empty"
   ],
   "note": ""
  },
  {
   "property": "C05",
   "status": "proved",
   "theorems": [
    "C05_bridge_endpoints",
    "C05_bridge_well_formed",
    "C05_bridge_every_outcome",
    "C05_backwards",
    "C05_zero_uniform_refuted"
   ],
   "note": "Proved for every draw with a non-zero uniform; for the documented draw 0.0 the end point is missed (C05_zero_uniform_refuted). expm is assumed exact (expm_exact)."
  },
  {
   "property": "C06",
   "status": "proved",
   "theorems": [
    "C06_discrete_chain_stochastic",
    "C06_choice_vectors",
    "C06_bridge_never_raises",
    "C06_bridge_terminates"
   ],
   "note": ""
  },
  {
   "property": "C07",
   "status": "proved",
   "theorems": [
    "C07_mutate_keeps_boundaries",
    "C07_proposal_keeps_states",
    "C07_proposal_without_conditioning"
   ],
   "note": ""
  },
  {
   "property": "C08",
   "status": "proved",
   "theorems": [
    "C08_batches_deliver_all_points"
   ],
   "note": ""
  },
  {
   "property": "C09",
   "status": "proved",
   "theorems": [
    "C09_batches_in_bounds_refuted",
    "C09_bound_times_batches"
   ],
   "note": "The claim is false; C09_batches_in_bounds_refuted is the witness, C09_bound_times_batches what does hold."
  },
  {
   "property": "C10",
   "status": "proved",
   "theorems": [
    "C10_ppp_points"
   ],
   "note": ""
  },
  {
   "property": "C11",
   "status": "proved",
   "theorems": [
    "C11_stat_system",
    "C11_nonsingular_iff_unique",
    "C11_get_stat_positive",
    "C11_forwards_from_stationary"
   ],
   "note": ""
  },
  {
   "property": "C12",
   "status": "proved",
   "theorems": [
    "C12_sample_param",
    "C12_get_ev",
    "C12_get_mode",
    "C12_trial_generator"
   ],
   "note": ""
  },
  {
   "property": "C13",
   "status": "proved",
   "theorems": [
    "C13_update_statistics"
   ],
   "note": ""
  },
  {
   "property": "C14",
   "status": "proved",
   "theorems": [
    "C14_time_after_last_jump_lost",
    "C14_full_horizon_refuted",
    "C14_versus_occupation"
   ],
   "note": "The claim that the whole horizon is credited is false for every path (C14_time_after_last_jump_lost, C14_full_horizon_refuted); C14_versus_occupation is the exact relation with est_stat."
  },
  {
   "property": "C15",
   "status": "proved",
   "theorems": [
    "C15_sample_param_law",
    "C15_gibbs_law",
    "C15_conjugacy",
    "C15_loglik_value",
    "C15_sample_param_draws",
    "C15_gibbs_draw"
   ],
   "note": ""
  },
  {
   "property": "C16",
   "status": "proved",
   "theorems": [
    "C16_gibbs_mean",
    "C16_ev_is_mean",
    "C16_mode_maximises"
   ],
   "note": ""
  },
  {
   "property": "C17",
   "status": "proved",
   "theorems": [
    "C17_call",
    "C17_state_unique",
    "C17_call_beyond_horizon",
    "C17_negative_time_wraps"
   ],
   "note": "C17_negative_time_wraps records that a negative time is not rejected but yields the last state."
  },
  {
   "property": "C18",
   "status": "proved",
   "theorems": [
    "C18_est_stat",
    "C18_est_stat_sums_to_one"
   ],
   "note": ""
  },
  {
   "property": "C19",
   "status": "proved",
   "theorems": [
    "C19_roundtrip_binary64_refuted"
   ],
   "note": "The doctest claim is false in binary64; the theorem is the refutation with a concrete witness (0.9 with a break at 0.3 on [0,1])."
  },
  {
   "property": "C20",
   "status": "proved",
   "theorems": [
    "C20_twocoin_law",
    "C20_twocoin_joint_law",
    "C20_budget_exhaustion",
    "C20_uniform_log_threshold",
    "C20_uniform_threshold",
    "C20_barker_law",
    "C20_sampler_law"
   ],
   "note": "Coins are memoryless with a fixed finite distribution of (success, payload); uniform draws enter through the lengths of the intervals proved in C20_uniform_log_threshold and C20_uniform_threshold. C20_barker_law and C20_sampler_law drop the finite distributions: the coins are arbitrary memoryless computations and every draw is integrated out (SpecLaw)."
  },
  {
   "property": "C21",
   "status": "proved",
   "theorems": [
    "C21_twocoin_balance",
    "C21_twocoin_joint_balance",
    "C21_acceptance_value",
    "C21_hidden_update_balance",
    "C21_sampler_balance"
   ],
   "note": ""
  },
  {
   "property": "C22",
   "status": "proved",
   "theorems": [
    "C22_twocoin_contract",
    "C22_twocoin_joint_contract",
    "C22_budget_error",
    "C22_no_portkey_no_escape",
    "C22_sure_portkey_one_flip"
   ],
   "note": ""
  },
  {
   "property": "C23",
   "status": "proved",
   "theorems": [
    "C23_const_of_reals",
    "C23_reals_of_const",
    "C23_inside",
    "C23_jacobian",
    "C23_proposal"
   ],
   "note": ""
  },
  {
   "property": "C24",
   "status": "proved",
   "theorems": [
    "C24_two_bounds_ignored",
    "C24_bounded_proposal_refuted"
   ],
   "note": "The claim is false; the theorems are the refutation: two finite bounds are treated as no bounds for every l < u."
  },
  {
   "property": "C25",
   "status": "proved",
   "theorems": [
    "C25_schedule_rw",
    "C25_schedule_mjp",
    "C25_schedule_mv",
    "C25_triangular",
    "C25_step_bound_rw",
    "C25_step_bound_mjp",
    "C25_proposal",
    "C25_covariance",
    "C25_hidden_learns"
   ],
   "note": ""
  },
  {
   "property": "C26",
   "status": "proved",
   "theorems": [
    "C26_windows_overlap",
    "C26_first_window",
    "C26_single_window_refuted"
   ],
   "note": "The claim is false: C26_windows_overlap and C26_first_window describe the windows exactly, C26_single_window_refuted is the witness."
  },
  {
   "property": "C27",
   "status": "proved",
   "theorems": [
    "C27_scalar_proposal_raises",
    "C27_ito_update_params_raises"
   ],
   "note": "The claim is false: the scalar proposal raises TypeError for every input, and so does every parameter update of the ito sampler."
  },
  {
   "property": "C28",
   "status": "proved",
   "theorems": [
    "C28_mean_and_covariance",
    "C28_mean_continued",
    "C28_covariance_continued",
    "C28_doctest_count_wrong",
    "C28_sample_covariance_refuted"
   ],
   "note": "The positive part is C28_mean_and_covariance; C28_covariance_continued is the exact value, C28_doctest_count_wrong and C28_sample_covariance_refuted the false readings."
  },
  {
   "property": "C29",
   "status": "proved",
   "theorems": [
    "C29_lower_hull",
    "C29_upper_hull",
    "C29_upper_hull_any_breaks",
    "C29_break_points"
   ],
   "note": ""
  },
  {
   "property": "C30",
   "status": "proved",
   "theorems": [
    "C30_envelope_quantile",
    "C30_zero_draw_refuted"
   ],
   "note": "Proved for every draw in (0,1); for the admissible draw 0.0 the searchsorted index -1 wraps around (C30_zero_draw_refuted). Requires two supports when the upper bound is infinite (with one the offset is -inf)."
  },
  {
   "property": "C31",
   "status": "proved",
   "theorems": [
    "C31_step",
    "C31_run",
    "C31_brace"
   ],
   "note": "For draws different from 0. A result None stands for a NaN (a support with derivative exactly 0 or a repeated support)."
  },
  {
   "property": "C32",
   "status": "proved",
   "theorems": [
    "C32_cdf",
    "C32_cdf_value",
    "C32_ppf_inverse",
    "C32_ppf_left_inverse",
    "C32_ppf_increasing",
    "C32_outside_refuted"
   ],
   "note": "For arguments between the bounds. C32_outside_refuted: an argument below the lower bound is accepted and gives a negative value (hitting.py line 46-52 does not clip)."
  },
  {
   "property": "C33",
   "status": "proved",
   "theorems": [
    "C33_brownbr_min",
    "C33_brownbr_min_any_draw",
    "C33_layerbr_min"
   ],
   "note": "Strict bounds and finite time under the probability-one hypothesis that no uniform draw is exactly 0; C33_brownbr_min_any_draw states what happens without it. With ub_x equal to the larger end point, which the assertion admits, sample_layerbr_min only ever exhausts its budget."
  },
  {
   "property": "C34",
   "status": "proved",
   "theorems": [
    "C34_brackets",
    "C34_monotone",
    "C34_decides",
    "C34_terminates",
    "C34_outside",
    "C34_seedless"
   ],
   "note": "p < 1 and the monotonicity in the half-width are proved with a minimum principle for the heat equation."
  },
  {
   "property": "C35",
   "status": "proved",
   "theorems": [
    "C35_limit",
    "C35_brackets",
    "C35_decides",
    "C35_terminates"
   ],
   "note": "Also covers the fast-forwarded branch."
  },
  {
   "property": "C36",
   "status": "proved",
   "theorems": [
    "C36_brown",
    "C36_brown_terminates",
    "C36_bessel",
    "C36_bessel_terminates",
    "C36_range",
    "C36_inner_bound",
    "C36_refuted"
   ],
   "note": "Proved when the three-term denominator sum is below 1; C36_refuted gives parameters where the decision is wrong (an odd partial sum of the denominator exceeds 1). The decision is reached for every seed other than the target, which is a probability."
  },
  {
   "property": "C37",
   "status": "proved",
   "theorems": [
    "C37_pow_default",
    "C37_pow_zero",
    "C37_pow_inside",
    "C37_pow_nested",
    "C37_pow_exhaust",
    "C37_pow_quantile",
    "C37_pow_nonpositive",
    "C37_layer_zero",
    "C37_inside",
    "C37_nested",
    "C37_exhaust",
    "C37_quantile"
   ],
   "note": "The exponent is an integer of either sign; no caller passes another one than the default 2, for which M_hit has its own copy (C37_pow_default)."
  },
  {
   "property": "C38",
   "status": "proved",
   "theorems": [
    "C38_layer",
    "C38_anchor",
    "C38_edges"
   ],
   "note": "The layer law is stated through the seed: the layer is the first one the seed does not escape from."
  },
  {
   "property": "C39",
   "status": "proved",
   "theorems": [
    "C39_wiener",
    "C39_brownian_bridge",
    "C39_wiener_moments",
    "C39_bridge_moments",
    "C39_conditioning",
    "C39_conditional_law"
   ],
   "note": "The law is stated as an affine image of the normal draws; independence and normality of the draws are assumed of the generator."
  },
  {
   "property": "C40",
   "status": "proved",
   "theorems": [
    "C40_layered_bridge",
    "C40_both_ends_at_infimum_refuted"
   ],
   "note": "Stated for calls that return. C40_both_ends_at_infimum_refuted: with both end points at the infimum and an upper bound, no call returns."
  },
  {
   "property": "C41",
   "status": "proved",
   "theorems": [
    "C41_reverse",
    "C41_reverse_rejects",
    "C41_reflect",
    "C41_reflect_empty_refuted",
    "C41_pivot",
    "C41_pivot_moments",
    "C41_seeded_bessel"
   ],
   "note": "reflect rejects an empty time array (C41_reflect_empty_refuted); the moments of pivot_brownbr and the form of gen_seeded_bessel3br are covered too."
  },
  {
   "property": "C42",
   "status": "proved",
   "theorems": [
    "C42_fill"
   ],
   "note": "Stated for calls that return; when every requested time is stored the flags are dropped (see C43)."
  },
  {
   "property": "C43",
   "status": "proved",
   "theorems": [
    "C43_dual_refuted",
    "C43_kept",
    "C43_lost_refuted"
   ],
   "note": "Refuted as claimed: C43_lost_refuted shows that every request for stored times drops the flags; C43_kept shows they are kept and refined otherwise."
  },
  {
   "property": "C44",
   "status": "proved",
   "theorems": [
    "C44_flip"
   ],
   "note": "For well-formed skeletons of any length."
  },
  {
   "property": "C45",
   "status": "proved",
   "theorems": [
    "C45_seed",
    "C45_seed_unique",
    "C45_seed_kept",
    "C45_seed_call",
    "C45_one_request",
    "C45_history",
    "C45_unique",
    "C45_bounds",
    "C45_call"
   ],
   "note": "For histories of any length, for calls that return."
  },
  {
   "property": "C46",
   "status": "proved",
   "theorems": [
    "C46_raw",
    "C46_within",
    "C46_one_sided_refuted",
    "C46_one_sided_reached"
   ],
   "note": "Holds for unflipped skeletons and for symmetric or infinite bounds; refuted for one-sided bounds."
  },
  {
   "property": "C47",
   "status": "proved",
   "theorems": [
    "C47_enclosed",
    "C47_sound",
    "C47_total"
   ],
   "note": "For any operators of the stated form and any eval_bounds_disc; C48 shows that both pairs of operators have that form."
  },
  {
   "property": "C48",
   "status": "proved",
   "theorems": [
    "C48_ito",
    "C48_switching",
    "C48_denorm_norm",
    "C48_norm_denorm",
    "C48_pinned",
    "C48_raw_inside",
    "C48_raw_outside_refuted"
   ],
   "note": "The third clause holds for seeds that were not flipped and for symmetric bounds, and fails for flipped seeds with one-sided bounds (C48_raw_outside_refuted)."
  },
  {
   "property": "C49",
   "status": "proved",
   "theorems": [
    "C49_ou",
    "C49_ou1",
    "C49_ou2",
    "C49_ou3",
    "C49_infimum",
    "C49_infimum1",
    "C49_infimum2",
    "C49_infimum3_refuted",
    "C49_encloses"
   ],
   "note": "Also for the third switching model, with positive parameters; the bounds are attained for all four. The first component is the smallest value for the first three models and twice the smallest value for the third switching model (C49_infimum3_refuted)."
  },
  {
   "property": "C50",
   "status": "proved",
   "theorems": [
    "C50_sound",
    "C50_refuted"
   ],
   "note": "Sound when sigma^2 <= 4 kappa mu (C50_sound); refuted for every parameter value below that (C50_refuted)."
  },
  {
   "property": "C51",
   "status": "proved",
   "theorems": [
    "C51_ou",
    "C51_ou1",
    "C51_ou2",
    "C51_ou3",
    "C51_positive",
    "C51_zero_ends_refuted"
   ],
   "note": "The coin equals the coin without assertion; the intensity is positive except between two zeros, where an update of the second parameter alone fails (C51_zero_ends_refuted)."
  },
  {
   "property": "C52",
   "status": "proved",
   "theorems": [
    "C52_refuted"
   ],
   "note": "The property is refuted for every input: the coin always raises AssertionError."
  },
  {
   "property": "C53",
   "status": "proved",
   "theorems": [
    "C53_ou",
    "C53_cir",
    "C53_ou1",
    "C53_ou2",
    "C53_ou_lamperti",
    "C53_cir_lamperti"
   ],
   "note": "Derivatives in the sense of Coquelicot; Lamperti identities for dV = -beta V dt + sigma dW and dV = kappa (mu - V) dt + sigma sqrt(V) dW."
  },
  {
   "property": "C54",
   "status": "proved",
   "theorems": [
    "C54_refuted",
    "C54_arrays_refuted"
   ],
   "note": "The property is refuted for every parameter row with a non-zero product, and by a witness for arrays of regimes."
  },
  {
   "property": "C55",
   "status": "proved",
   "theorems": [
    "C55_seed_log",
    "C55_seed_decision",
    "C55_seed_infinite",
    "C55_seed_flat_refuted",
    "C55_seed_estimate",
    "C55_log",
    "C55_decision",
    "C55_estimate"
   ],
   "note": "Under draws without ties; the log lists the Poisson points that were used. A constant discrepancy (upper bound equal to the lower) makes the coin of seed.py fail (C55_seed_flat_refuted)."
  },
  {
   "property": "C56",
   "status": "proved",
   "theorems": [
    "C56_split_paste",
    "C56_binary64_refuted"
   ],
   "note": "Over the reals; refuted in binary64, where subtracting and adding back a piece offset loses an observation time (C56_binary64_refuted)."
  },
  {
   "property": "C57",
   "status": "proved",
   "theorems": [
    "C57_sample_aug",
    "C57_seeds",
    "C57_anchor_law"
   ],
   "note": "For calls that return; values at observation times are the observed values (identity reduction)."
  },
  {
   "property": "C58",
   "status": "proved",
   "theorems": [
    "C58_update_hidden",
    "C58_sample_posterior"
   ],
   "note": "For calls that return, draws without ties, at least four observations (C68) and two regimes, with exact linear algebra. That states repeat exactly at observation times needs paths that do not jump there, which is carried along as a second invariant. Runs that return exist and can go anywhere, see C105."
  },
  {
   "property": "C59",
   "status": "proved",
   "theorems": [
    "C59_local",
    "C59_own_intervals_only",
    "C59_any_schedule"
   ],
   "note": "Each section has its own generator, as in the code."
  },
  {
   "property": "C60",
   "status": "proved",
   "theorems": [
    "C60_value",
    "C60_decomposes",
    "C60_local",
    "C60_observed",
    "C60_full"
   ],
   "note": "The second component for regime paths that do not jump at observation times (C58 carries this along)."
  },
  {
   "property": "C61",
   "status": "proved",
   "theorems": [
    "C61_sizes",
    "C61_slow_refuted",
    "C61_particles",
    "C61_ito"
   ],
   "note": "Runs of any length that return; minimize is a parameter. For learning rates below one the number of particles can stay constant (C61_slow_refuted)."
  },
  {
   "property": "C62",
   "status": "proved",
   "theorems": [
    "C62_switching",
    "C62_switching_step",
    "C62_ito_step",
    "C62_ito_refuted"
   ],
   "note": "Proved for switching; refuted for ito, whose loop always passes init_thi (C62_ito_refuted, and C61_ito states what it does)."
  },
  {
   "property": "C63",
   "status": "proved",
   "theorems": [
    "C63_buffer",
    "C63_clip",
    "C63_regimes_refuted"
   ],
   "note": "Refuted for the call in switching update_param, which passes the number of regimes (C63_regimes_refuted)."
  },
  {
   "property": "C64",
   "status": "proved",
   "theorems": [
    "C64_initial",
    "C64_asymmetric_refuted",
    "C64_m_step"
   ],
   "note": "Initial generator: proved for the constant hyper-prior of the package, refuted for asymmetric ones (C64_asymmetric_refuted)."
  },
  {
   "property": "C65",
   "status": "proved",
   "theorems": [
    "C65_switching_balance",
    "C65_ito_balance_without_precoin",
    "C65_ito_precoin_balance_iff",
    "C65_ito_precoin_refuted"
   ],
   "note": "Balance is proved for switching and for ito without the pre-coin; with the pre-coin the ito claim is false (C65_ito_precoin_balance_iff, C65_ito_precoin_refuted)."
  },
  {
   "property": "C66",
   "status": "proved",
   "theorems": [
    "C66_generator_not_used",
    "C66_reproducible_refuted"
   ],
   "note": "The claim is false; the global numpy state is the map mvn from arguments to draws."
  },
  {
   "property": "C67",
   "status": "proved",
   "theorems": [
    "C67_seeded_min",
    "C67_wald"
   ],
   "note": "The second root is chosen by u[1]; C67_wald names both roots."
  },
  {
   "property": "C68",
   "status": "proved",
   "theorems": [
    "C68_short_series_raises",
    "C68_long_series"
   ],
   "note": "False for two or three observations (C68_short_series_raises); C68_long_series is what holds from four observations on."
  },
  {
   "property": "C69",
   "status": "proved",
   "theorems": [
    "C69_n_trans_law",
    "C69_n_trans_inverse_cdf",
    "C69_n_trans_cdf_total"
   ],
   "note": ""
  },
  {
   "property": "C70",
   "status": "proved",
   "theorems": [
    "C70_forwards_competing_clocks"
   ],
   "note": ""
  },
  {
   "property": "C71",
   "status": "proved",
   "theorems": [
    "C71_seed",
    "C71_sampler"
   ],
   "note": "For calls that return, under draws without ties."
  },
  {
   "property": "C72",
   "status": "proved",
   "theorems": [
    "C72_decision",
    "C72_assertion"
   ],
   "note": "Under draws without ties. Every round drops the hit flags of the seed (C43_dual_refuted)."
  },
  {
   "property": "C73",
   "status": "proved",
   "theorems": [
    "C73_optimal",
    "C73_default_refuted"
   ],
   "note": "For shapes above one; with the default shape one unobserved transitions get rate zero (C73_default_refuted)."
  },
  {
   "property": "C74",
   "status": "proved",
   "theorems": [
    "C74_particles",
    "C74_kept",
    "C74_thinning_refuted"
   ],
   "note": "Without thinning; refuted for the default thinning (C74_thinning_refuted), C74_kept says which states are kept for any thinning."
  },
  {
   "property": "C75",
   "status": "proved",
   "theorems": [
    "C75_ito",
    "C75_switching"
   ],
   "note": "For draws without ties, when update_objective returns."
  },
  {
   "property": "C76",
   "status": "proved",
   "theorems": [
    "C76_sum",
    "C76_local",
    "C76_objective_local",
    "C76_objective_sum"
   ],
   "note": "The prior is added once per regime by the code; the statement is about the likelihood part, for one particle and for the function returned by update_objective."
  },
  {
   "property": "C77",
   "status": "proved",
   "theorems": [
    "C77_ito_params",
    "C77_ito_bridge",
    "C77_params",
    "C77_hidden"
   ],
   "note": "Equalities between runs: the two-coin run starts at the stated draw from the stated weights; C17 to C22 say what it does."
  },
  {
   "property": "C78",
   "status": "proved",
   "theorems": [
    "C78_ito_value",
    "C78_ito_refined",
    "C78_hidden_value",
    "C78_hidden_refined"
   ],
   "note": ""
  },
  {
   "property": "C79",
   "status": "proved",
   "theorems": [
    "C79_chain"
   ],
   "note": "For calls that return and draws without ties. The adaptation of the proposals is left out: proposals are arbitrary up to admissibility."
  },
  {
   "property": "C80",
   "status": "proved",
   "theorems": [
    "C80_params",
    "C80_bridge",
    "C80_bridge_local"
   ],
   "note": ""
  },
  {
   "property": "C81",
   "status": "proved",
   "theorems": [
    "C81_value",
    "C81_intervals"
   ],
   "note": ""
  },
  {
   "property": "C82",
   "status": "proved",
   "theorems": [
    "C82_ou",
    "C82_cir",
    "C82_cir_refuted"
   ],
   "note": "Proved where it holds, refuted for every other CIR parameter (C82_cir_refuted)."
  },
  {
   "property": "C83",
   "status": "proved",
   "theorems": [
    "C83_path"
   ],
   "note": "For calls that return; draws without ties."
  },
  {
   "property": "C84",
   "status": "proved",
   "theorems": [
    "C84_eq",
    "C84_eq_paths"
   ],
   "note": ""
  },
  {
   "property": "C85",
   "status": "proved",
   "theorems": [
    "C85_ito",
    "C85_switching",
    "C85_switching_start"
   ],
   "note": "For runs that return (they exist, see C86 and C105); the inputs of the parameter samplers are arbitrary."
  },
  {
   "property": "C86",
   "status": "proved",
   "theorems": [
    "C86_raw",
    "C86_skeleton",
    "C86_bridge",
    "C86_chain",
    "C86_ou"
   ],
   "note": "For sample_skeleton with a given end point; the chain theorem is for the Ito sampler on the whole line, with proposals that take a Gaussian step."
  },
  {
   "property": "C87",
   "status": "proved",
   "theorems": [
    "C87_forwards",
    "C87_stationary",
    "C87_forwards_only",
    "C87_bridge",
    "C87_backwards",
    "C87_bridge_only",
    "C87_backwards_only",
    "C87_proposal",
    "C87_generator"
   ],
   "note": "Bridges up to eps because draws without ties avoid finitely many values; matrix exponential exact, linear solver correct."
  },
  {
   "property": "C88",
   "status": "proved",
   "theorems": [
    "C88_law_unique",
    "C88_law_additive",
    "C88_law_monotone",
    "C88_law_range",
    "C88_ppp",
    "C88_ppp_line",
    "C88_thinning",
    "C88_coin_instance",
    "C88_estimate_instance",
    "C88_estimator_unbiased",
    "C88_one_batch",
    "C88_batches_refuted",
    "C88_batches_values"
   ],
   "note": "The densities of SpecLaw are the meaning given to numpy distributions. Coins are taken on a path that is already known; C88_coin_instance and C88_estimate_instance tie them to the code. C88_batches_refuted: points after the first batch do not have the right law."
  },
  {
   "property": "C89",
   "status": "proved",
   "theorems": [
    "C89_visits",
    "C89_bridge",
    "C89_backwards",
    "C89_forwards",
    "C89_forwards_stationary",
    "C89_stationary"
   ],
   "note": "Matrix exponential exact; the densities of SpecLaw are the meaning given to numpy distributions. The probabilities are limits in the loop bound of the model."
  },
  {
   "property": "C90",
   "status": "proved",
   "theorems": [
    "C90_mutate_law",
    "C90_mutate_single",
    "C90_backwards_stationary_iff",
    "C90_stationary_refuted"
   ],
   "note": "C90_backwards_stationary_iff settles when the first piece is stationary; C90_stationary_refuted is a two-state witness that it is not in general. Same reading of the draws as C89."
  },
  {
   "property": "C91",
   "status": "proved",
   "theorems": [
    "C91_ou",
    "C91_ou_normal",
    "C91_switching",
    "C91_cir",
    "C91_nan_refuted"
   ],
   "note": "Logarithms, sums and divisions follow IEEE rules on infinities and NaN; finite arithmetic is exact. C91_nan_refuted refutes the last claim. The chains of C85 and C86 take the log prior as a real function of the parameters, so they apply inside the positive parameters."
  },
  {
   "property": "C92",
   "status": "proved",
   "theorems": [
    "C92_recursion",
    "C92_lengths_iff",
    "C92_law"
   ],
   "note": "C92_lengths_iff settles the last claim both ways. The division and multiplication by the step are exact; the dfunc and vfunc of the code act entry by entry. C92_law gives the joint law of the increments."
  },
  {
   "property": "C93",
   "status": "proved",
   "theorems": [
    "C93_sig",
    "C93_bet_refuted",
    "C93_bet_shifted",
    "C93_bound_refuted"
   ],
   "note": "The claims on the mean reversion and on the bound are refuted (C93_bet_refuted, C93_bound_refuted). The library does not call eval_grad."
  },
  {
   "property": "C94",
   "status": "proved",
   "theorems": [
    "C94_brown",
    "C94_brown_outer",
    "C94_bessel",
    "C94_bessel_outer",
    "C94_bessel_range",
    "C94_edge_loop",
    "C94_edge_law",
    "C94_edge_accepted"
   ],
   "note": "The probabilities are the classical series of SpecHit; that these series are the escape probabilities of the processes is trusted. The statements are limits in the number of terms the model may use. With an outer bound the condition of C36 is needed (C36_refuted)."
  },
  {
   "property": "C95",
   "status": "proved",
   "theorems": [
    "C95_wiener",
    "C95_bridge",
    "C95_bridge_moments"
   ],
   "note": "Moment generating functions at every real point, which determine the law; the normal density of SpecLaw is the meaning given to numpy draws."
  },
  {
   "property": "C96",
   "status": "proved",
   "theorems": [
    "C96_min_law",
    "C96_reflection",
    "C96_time_law",
    "C96_symmetric"
   ],
   "note": "The pair (nan, -inf) returned for a uniform equal to 0 without a lower bound counts as a minimum below everything. That argmin_weight is the conditional density of the time of the minimum of the process is classical and trusted."
  },
  {
   "property": "C97",
   "status": "proved",
   "theorems": [
    "C97_instance",
    "C97_segment",
    "C97_ito",
    "C97_switching",
    "C97_ito_infinite_refuted",
    "C97_switching_infinite_refuted",
    "C97_segment_square",
    "C97_ito_square",
    "C97_switching_square"
   ],
   "note": "The path behind a seed is a function that reading off does not change (pinned); C97_instance says that the code differs from this only in the interpolation. With an infinite upper bound the estimate is 0 (refuted)."
  },
  {
   "property": "C98",
   "status": "proved",
   "theorems": [
    "C98_wrap",
    "C98_box",
    "C98_touch",
    "C98_positive",
    "C98_ito",
    "C98_switching",
    "C98_switching_rows",
    "C98_missing",
    "C98_step_refuted",
    "C98_regimes_refuted",
    "C98_louis"
   ],
   "note": "Differentiation and the matrix inverse are arbitrary functions; C98_louis assumes exact differentiation of the objective at hand, which its example shows for central differences. Refuted: steps that leave the bounds; switching models without bounds."
  },
  {
   "property": "C99",
   "status": "proved",
   "theorems": [
    "C99_insert",
    "C99_law",
    "C99_spread_refuted"
   ],
   "note": "One-dimensional x. Refuted for new times that are not all strictly inside one interval."
  },
  {
   "property": "C100",
   "status": "proved",
   "theorems": [
    "C100_bessel",
    "C100_bridge",
    "C100_joint",
    "C100_joint_bridge",
    "C100_bridges_independent"
   ],
   "note": "At one time the law is identified through the Laplace transform of the square. The joint law over times is that of the length of a vector of independent Brownian motions or bridges (C100_joint, C100_joint_bridge), whose joint laws are C95_wiener and C100_bridges_independent."
  },
  {
   "property": "C101",
   "status": "proved",
   "theorems": [
    "C101_layer",
    "C101_exact"
   ],
   "note": "The probability is the limit as the number of terms of the series that the model may use grows; the code has no such limit."
  },
  {
   "property": "C102",
   "status": "proved",
   "theorems": [
    "C102_iteration",
    "C102_target_mass",
    "C102_full_hull",
    "C102_full_hull_limit",
    "C102_adaptive"
   ],
   "note": "C102_adaptive is about runs in which the value 0 of a uniform (probability zero) is replaced by 1/2: C30_zero_draw_refuted shows what the code does with it. Runs that reach a hull with the mode itself as a support, where the code divides by zero, yield nothing further in the model."
  },
  {
   "property": "C103",
   "status": "proved",
   "theorems": [
    "C103_fair",
    "C103_mirrored",
    "C103_first",
    "C103_refuted",
    "C103_min_loop",
    "C103_min",
    "C103_edges_loop",
    "C103_edges",
    "C103_edges_kept"
   ],
   "note": "C103_refuted: a lower bound only, second layer. The equation anchor_exact states when the mixture of the two anchored laws, with paths that visit both sectors kept half the time, is the law of a path of the layer; the measure on paths itself is not constructed. C103_edges needs the range in which the bounded series is exact (C36_bessel)."
  },
  {
   "property": "C104",
   "status": "proved",
   "theorems": [
    "C104_refines",
    "C104_history",
    "C104_schedule",
    "C104_posterior",
    "C104_ito_refuted",
    "C104_ito_reached"
   ],
   "note": "C104_ito_refuted and C104_ito_reached: the Ito chain cannot run with the samplers it creates. np.random.multivariate_normal is an arbitrary map from arguments to draws, one for each iteration and regime."
  },
  {
   "property": "C105",
   "status": "proved",
   "theorems": [
    "C105_general",
    "C105_samplers",
    "C105_ou3",
    "C105_ou12",
    "C105_ou12_twice"
   ],
   "note": "Existence of runs: random numbers without ties are exhibited, for every fuel from some number on. The probability of a neighbourhood of a tour is not computed. For ou.py and ou2.py a change of the second parameter alone is left out because it fails between two zeros (C51_zero_ends_refuted). Prior and likelihood are arbitrary real functions."
  },
  {
   "property": "C106",
   "status": "proved",
   "theorems": [
    "C106_instance",
    "C106_levels",
    "C106_coin",
    "C106_bridge",
    "C106_error"
   ],
   "note": "The interpolation of seeds is left open (C106_instance: update_sde_bridge is the instance with interpolate_skeleton) and the law is computed for a path that is already known, as in C97; that the interpolated path is the Brownian bridge of the layer is C95, C96, C99 to C101 and C103. The hypothesis on the time spent below a level excludes discrepancies that are constant, above their lower bound, on a part of the path. The bound is not claimed to be attained; that it is not zero is C88_batches_refuted."
  },
  {
   "property": "C107",
   "status": "proved",
   "theorems": [
    "C107_instances",
    "C107_dual_coin",
    "C107_hidden",
    "C107_params",
    "C107_ito",
    "C107_gradients"
   ],
   "note": "The interpolation of seeds is left open (C107_instances: the sections are the instances with interpolate_skeleton) and the law is computed for paths that are already known, as in C97 and C106; that the interpolated path is the Brownian bridge of the layer is C95, C96, C99 to C101 and C103. The proposal is one draw with its two densities; the weights contain the forward density, so summing over the law of the proposal gives the balance of the whole update. A difference of discrepancies that is constant and positive on a part of the path is excluded, one that is negative there is not. That the error tends to zero with the batch size is C106_error; that it is not zero is C88_batches_refuted."
  },
  {
   "property": "C108",
   "status": "proved",
   "theorems": [
    "C108_bridge",
    "C108_hidden",
    "C108_params",
    "C108_ito"
   ],
   "note": "That the share of time below a level varies continuously with the level stays a hypothesis: it is true of Brownian paths with probability one and false for paths that rest at a level. The positivity of the intensity is a hypothesis too; it holds by C51_positive unless the proposal leaves the first parameter of ou.py or ou2.py alone between two zeros. ou3.py is covered with its own discrepancy, whose derivative is halved (C54_refuted)."
  },
  {
   "property": "C109",
   "status": "proved",
   "theorems": [
    "C109_one_generator",
    "C109_hidden",
    "C109_bridges",
    "C109_params",
    "C109_error",
    "C109_prior_refuted"
   ],
   "note": "Full strength for the statement, on known paths. That the generators spawned from one seed sequence are independent is trusted; the law of independent jobs is the iterated average (SpecJobs), which C109_one_generator identifies with the jobs run one after the other on one generator. The law of each part is that of C106 and C107. C109_prior_refuted: the parallel parameter update is not reversible for a prior that ties regimes together; the package does not reject such a prior."
  },
  {
   "property": "C110",
   "status": "proved",
   "theorems": [
    "C110_params",
    "C110_exists",
    "C110_density"
   ],
   "note": "Full strength for the statement, for the switching sampler and with the sampler frozen at its present scale and covariance (adaptation changes the proposal law, C25). That multivariate_normal has an even density is trusted (section 4). The scalar sampler of the Ito module is not covered because its propose raises TypeError (C27, C104)."
  },
  {
   "property": "C111",
   "status": "proved",
   "theorems": [
    "C111_semigroup",
    "C111_uniform",
    "C111_reversible",
    "C111_only_uniform",
    "C111_uncut",
    "C111_preserved_refuted"
   ],
   "note": "C111_uniform, C111_reversible and C111_only_uniform settle cut paths, C111_uncut settles uncut ones (given that the linear solver is right); C111_preserved_refuted is a concrete generator for which no initial law is kept by both. The law of the states at the cuts is summed over explicitly; the partition may be any with these states. Same reading of the draws as C89 and C90."
  },
  {
   "property": "C112",
   "status": "proved",
   "theorems": [
    "C112_path_law",
    "C112_path_law_stationary",
    "C112_loglik",
    "C112_loglik_is_log_density_refuted",
    "C112_posterior"
   ],
   "note": "C112_path_law and C112_path_law_stationary give the exact joint law of the states and jump times; the claim about eval_loglik is false for every path (C112_loglik_is_log_density_refuted), C112_loglik gives the missing factor and C112_posterior the update that would be right."
  },
  {
   "property": "C113",
   "status": "proved",
   "theorems": [
    "C113_bridge",
    "C113_given_end",
    "C113_backwards",
    "C113_mutate",
    "C113_reversible",
    "C113_uncut"
   ],
   "note": "C113_bridge and C113_given_end give the exact law of the states and jump times of a bridge, C113_backwards of a backward path, C113_mutate the joint law of all redrawn pieces, C113_reversible the balance of redrawing for whole paths; the bounds on the jump times are taken in order, which determines the law of the (ordered) jump times. As in C89 the law is the limit as the bound on the number of terms of sample_n_trans grows."
  },
  {
   "property": "C114",
   "status": "proved",
   "theorems": [
    "C114_flips",
    "C114_joint_flips",
    "C114_same_outcome",
    "C114_portkey_bound",
    "C114_mean",
    "C114_loss",
    "C114_sampler"
   ],
   "note": "Stated for coins whose flips are independent draws from one law each, first a finite one (as C20 and C21) and in C114_sampler any; the count is carried as the state of the coins, so it counts the calls of next / send of the code. History dependent coins are covered by C22 only, which bounds their number by the budget."
  },
  {
   "property": "C115",
   "status": "proved",
   "theorems": [
    "C115_single_refuted",
    "C115_single_redraw_refuted",
    "C115_same_ito_refuted",
    "C115_same_switching_refuted",
    "C115_same_update_refuted"
   ],
   "note": "The claim is false and its negation is proved for all inputs. A proposal that equals the present parameters has probability zero for the random walks of the package as long as their covariance is not singular and rounding is left aside."
  },
  {
   "property": "C116",
   "status": "proved",
   "theorems": [
    "C116_ito_instance",
    "C116_switching_instance",
    "C116_objective_instance",
    "C116_switching_objective_instance",
    "C116_ito",
    "C116_switching",
    "C116_objective",
    "C116_switching_objective",
    "C116_ito_mstep",
    "C116_switching_mstep",
    "C116_ito_variance",
    "C116_switching_variance"
   ],
   "note": "On paths that are already known (the interpolation of skeletons is left open and then fixed to reading off a path; the instance theorems tie the programs to the code)."
  }
 ]
}