NOTES['C19'] = ('proved', 'The doctest claim is false in binary64; the theorem is the refutation with a concrete witness (0.9 with a break at 0.3 on [0,1]).')
NOTES['C17'] = ('proved', 'C17_negative_time_wraps records that a negative time is not rejected but yields the last state.')
NOTES['C05'] = ('proved', 'Proved for every draw with a non-zero uniform; for the documented draw 0.0 the end point is missed (C05_zero_uniform_refuted). expm is assumed exact (expm_exact).')
NOTES['C09'] = ('proved', 'The claim is false; C09_batches_in_bounds_refuted is the witness, C09_bound_times_batches what does hold.')
NOTES['C14'] = ('proved', 'The claim that the whole horizon is credited is false for every path (C14_time_after_last_jump_lost, C14_full_horizon_refuted); C14_versus_occupation is the exact relation with est_stat.')
NOTES['C65'] = ('proved', 'Balance is proved for switching and for ito without the pre-coin; with the pre-coin the ito claim is false (C65_ito_precoin_balance_iff, C65_ito_precoin_refuted).')
NOTES['C20'] = ('proved', 'Coins are memoryless with a fixed finite distribution of (success, payload); uniform draws enter through the lengths of the intervals proved in C20_uniform_log_threshold and C20_uniform_threshold. C20_barker_law and C20_sampler_law drop the finite distributions: the coins are arbitrary memoryless computations and every draw is integrated out (SpecLaw).')
NOTES['C24'] = ('proved', 'The claim is false; the theorems are the refutation: two finite bounds are treated as no bounds for every l < u.')
NOTES['C26'] = ('proved', 'The claim is false: C26_windows_overlap and C26_first_window describe the windows exactly, C26_single_window_refuted is the witness.')
NOTES['C27'] = ('proved', 'The claim is false: the scalar proposal raises TypeError for every input, and so does every parameter update of the ito sampler.')
NOTES['C28'] = ('proved', 'The positive part is C28_mean_and_covariance; C28_covariance_continued is the exact value, C28_doctest_count_wrong and C28_sample_covariance_refuted the false readings.')
NOTES['C66'] = ('proved', 'The claim is false; the global numpy state is the map mvn from arguments to draws.')
NOTES['C68'] = ('proved', 'False for two or three observations (C68_short_series_raises); C68_long_series is what holds from four observations on.')
NOTES['C30'] = ('proved', 'Proved for every draw in (0,1); for the admissible draw 0.0 the searchsorted index -1 wraps around (C30_zero_draw_refuted). Requires two supports when the upper bound is infinite (with one the offset is -inf).')
NOTES['C31'] = ('proved', 'For draws different from 0. A result None stands for a NaN (a support with derivative exactly 0 or a repeated support).')
NOTES['C32'] = ('proved', 'For arguments between the bounds. C32_outside_refuted: an argument below the lower bound is accepted and gives a negative value (hitting.py line 46-52 does not clip).')
NOTES['C33'] = ('proved', 'Strict bounds and finite time under the probability-one hypothesis that no uniform draw is exactly 0; C33_brownbr_min_any_draw states what happens without it. With ub_x equal to the larger end point, which the assertion admits, sample_layerbr_min only ever exhausts its budget.')
NOTES['C34'] = ('proved', 'p < 1 and the monotonicity in the half-width are proved with a minimum principle for the heat equation.')
NOTES['C35'] = ('proved', 'Also covers the fast-forwarded branch.')
NOTES['C36'] = ('proved', 'Proved when the three-term denominator sum is below 1; C36_refuted gives parameters where the decision is wrong (an odd partial sum of the denominator exceeds 1). The decision is reached for every seed other than the target, which is a probability.')
NOTES['C37'] = ('proved', 'The exponent is an integer of either sign; no caller passes another one than the default 2, for which M_hit has its own copy (C37_pow_default).')
NOTES['C38'] = ('proved', 'The layer law is stated through the seed: the layer is the first one the seed does not escape from.')
NOTES['C67'] = ('proved', 'The second root is chosen by u[1]; C67_wald names both roots.')
NOTES['C39'] = ('proved', 'The law is stated as an affine image of the normal draws; independence and normality of the draws are assumed of the generator.')
NOTES['C40'] = ('proved', 'Stated for calls that return. C40_both_ends_at_infimum_refuted: with both end points at the infimum and an upper bound, no call returns.')
NOTES['C41'] = ('proved', 'reflect rejects an empty time array (C41_reflect_empty_refuted); the moments of pivot_brownbr and the form of gen_seeded_bessel3br are covered too.')
NOTES['C42'] = ('proved', 'Stated for calls that return; when every requested time is stored the flags are dropped (see C43).')
NOTES['C43'] = ('proved', 'Refuted as claimed: C43_lost_refuted shows that every request for stored times drops the flags; C43_kept shows they are kept and refined otherwise.')
NOTES['C44'] = ('proved', 'For well-formed skeletons of any length.')
NOTES['C45'] = ('proved', 'For histories of any length, for calls that return.')
NOTES['C46'] = ('proved', 'Holds for unflipped skeletons and for symmetric or infinite bounds; refuted for one-sided bounds.')
NOTES['C55'] = ('proved', 'Under draws without ties; the log lists the Poisson points that were used. A constant discrepancy (upper bound equal to the lower) makes the coin of seed.py fail (C55_seed_flat_refuted).')
NOTES['C71'] = ('proved', 'For calls that return, under draws without ties.')

NOTES['C47'] = ('proved', 'For any operators of the stated form and any eval_bounds_disc; C48 shows that both pairs of operators have that form.')
NOTES['C48'] = ('proved', 'The third clause holds for seeds that were not flipped and for symmetric bounds, and fails for flipped seeds with one-sided bounds (C48_raw_outside_refuted).')
NOTES['C72'] = ('proved', 'Under draws without ties. Every round drops the hit flags of the seed (C43_dual_refuted).')

NOTES['C49'] = ('proved', 'Also for the third switching model, with positive parameters; the bounds are attained for all four. The first component is the smallest value for the first three models and twice the smallest value for the third switching model (C49_infimum3_refuted).')
NOTES['C50'] = ('proved', 'Sound when sigma^2 <= 4 kappa mu (C50_sound); refuted for every parameter value below that (C50_refuted).')
NOTES['C51'] = ('proved', 'The coin equals the coin without assertion; the intensity is positive except between two zeros, where an update of the second parameter alone fails (C51_zero_ends_refuted).')
NOTES['C52'] = ('proved', 'The property is refuted for every input: the coin always raises AssertionError.')
NOTES['C53'] = ('proved', 'Derivatives in the sense of Coquelicot; Lamperti identities for dV = -beta V dt + sigma dW and dV = kappa (mu - V) dt + sigma sqrt(V) dW.')
NOTES['C54'] = ('proved', 'The property is refuted for every parameter row with a non-zero product, and by a witness for arrays of regimes.')

NOTES['C56'] = ('proved', 'Over the reals; refuted in binary64, where subtracting and adding back a piece offset loses an observation time (C56_binary64_refuted).')
NOTES['C57'] = ('proved', 'For calls that return; values at observation times are the observed values (identity reduction).')
NOTES['C58'] = ('proved', 'For calls that return, draws without ties, at least four observations (C68) and two regimes, with exact linear algebra. That states repeat exactly at observation times needs paths that do not jump there, which is carried along as a second invariant. Runs that return exist and can go anywhere, see C105.')
NOTES['C59'] = ('proved', 'Each section has its own generator, as in the code.')
NOTES['C60'] = ('proved', 'The second component for regime paths that do not jump at observation times (C58 carries this along).')

NOTES['C61'] = ('proved', 'Runs of any length that return; minimize is a parameter. For learning rates below one the number of particles can stay constant (C61_slow_refuted).')
NOTES['C62'] = ('proved', 'Proved for switching; refuted for ito, whose loop always passes init_thi (C62_ito_refuted, and C61_ito states what it does).')
NOTES['C63'] = ('proved', 'Refuted for the call in switching update_param, which passes the number of regimes (C63_regimes_refuted).')
NOTES['C64'] = ('proved', 'Initial generator: proved for the constant hyper-prior of the package, refuted for asymmetric ones (C64_asymmetric_refuted).')
NOTES['C73'] = ('proved', 'For shapes above one; with the default shape one unobserved transitions get rate zero (C73_default_refuted).')
NOTES['C74'] = ('proved', 'Without thinning; refuted for the default thinning (C74_thinning_refuted), C74_kept says which states are kept for any thinning.')
NOTES['C75'] = ('proved', 'For draws without ties, when update_objective returns.')
NOTES['C76'] = ('proved', 'The prior is added once per regime by the code; the statement is about the likelihood part, for one particle and for the function returned by update_objective.')
NOTES['C77'] = ('proved', 'Equalities between runs: the two-coin run starts at the stated draw from the stated weights; C17 to C22 say what it does.')
NOTES['C78'] = ('proved', '')
NOTES['C79'] = ('proved', 'For calls that return and draws without ties. The adaptation of the proposals is left out: proposals are arbitrary up to admissibility.')
NOTES['C80'] = ('proved', '')
NOTES['C81'] = ('proved', '')
NOTES['C82'] = ('proved', 'Proved where it holds, refuted for every other CIR parameter (C82_cir_refuted).')
NOTES['C83'] = ('proved', 'For calls that return; draws without ties.')
NOTES['C84'] = ('proved', '')
NOTES['C85'] = ('proved', 'For runs that return (they exist, see C86 and C105); the inputs of the parameter samplers are arbitrary.')
NOTES['C86'] = ('proved', 'For sample_skeleton with a given end point; the chain theorem is for the Ito sampler on the whole line, with proposals that take a Gaussian step.')
NOTES['C87'] = ('proved', 'Bridges up to eps because draws without ties avoid finitely many values; matrix exponential exact, linear solver correct.')
NOTES['C88'] = ('proved', 'The densities of SpecLaw are the meaning given to numpy distributions. Coins are taken on a path that is already known; C88_coin_instance and C88_estimate_instance tie them to the code. C88_batches_refuted: points after the first batch do not have the right law.')
NOTES['C89'] = ('proved', 'Matrix exponential exact; the densities of SpecLaw are the meaning given to numpy distributions. The probabilities are limits in the loop bound of the model.')
NOTES['C90'] = ('proved', 'C90_backwards_stationary_iff settles when the first piece is stationary; C90_stationary_refuted is a two-state witness that it is not in general. Same reading of the draws as C89.')
NOTES['C91'] = ('proved', 'Logarithms, sums and divisions follow IEEE rules on infinities and NaN; finite arithmetic is exact. C91_nan_refuted refutes the last claim. The chains of C85 and C86 take the log prior as a real function of the parameters, so they apply inside the positive parameters.')
NOTES['C92'] = ('proved', 'C92_lengths_iff settles the last claim both ways. The division and multiplication by the step are exact; the dfunc and vfunc of the code act entry by entry. C92_law gives the joint law of the increments.')
NOTES['C93'] = ('proved', 'The claims on the mean reversion and on the bound are refuted (C93_bet_refuted, C93_bound_refuted). The library does not call eval_grad.')
NOTES['C94'] = ('proved', 'The probabilities are the classical series of SpecHit; that these series are the escape probabilities of the processes is trusted. The statements are limits in the number of terms the model may use. With an outer bound the condition of C36 is needed (C36_refuted).')
NOTES['C95'] = ('proved', 'Moment generating functions at every real point, which determine the law; the normal density of SpecLaw is the meaning given to numpy draws.')
NOTES['C96'] = ('proved', 'The pair (nan, -inf) returned for a uniform equal to 0 without a lower bound counts as a minimum below everything. That argmin_weight is the conditional density of the time of the minimum of the process is classical and trusted.')
NOTES['C97'] = ('proved', 'The path behind a seed is a function that reading off does not change (pinned); C97_instance says that the code differs from this only in the interpolation. With an infinite upper bound the estimate is 0 (refuted).')
NOTES['C98'] = ('proved', 'Differentiation and the matrix inverse are arbitrary functions; C98_louis assumes exact differentiation of the objective at hand, which its example shows for central differences. Refuted: steps that leave the bounds; switching models without bounds.')
NOTES['C100'] = ('proved', 'At one time the law is identified through the Laplace transform of the square. The joint law over times is that of the length of a vector of independent Brownian motions or bridges (C100_joint, C100_joint_bridge), whose joint laws are C95_wiener and C100_bridges_independent.')
NOTES['C102'] = ('proved', 'C102_adaptive is about runs in which the value 0 of a uniform (probability zero) is replaced by 1/2: C30_zero_draw_refuted shows what the code does with it. Runs that reach a hull with the mode itself as a support, where the code divides by zero, yield nothing further in the model.')
NOTES['C101'] = ('proved', 'The probability is the limit as the number of terms of the series that the model may use grows; the code has no such limit.')
NOTES['C99'] = ('proved', 'One-dimensional x. Refuted for new times that are not all strictly inside one interval.')
NOTES['C103'] = ('proved', 'C103_refuted: a lower bound only, second layer. The equation anchor_exact states when the mixture of the two anchored laws, with paths that visit both sectors kept half the time, is the law of a path of the layer; the measure on paths itself is not constructed. C103_edges needs the range in which the bounded series is exact (C36_bessel).')
NOTES['C104'] = ('proved', 'C104_ito_refuted and C104_ito_reached: the Ito chain cannot run with the samplers it creates. np.random.multivariate_normal is an arbitrary map from arguments to draws, one for each iteration and regime.')
NOTES['C105'] = ('proved', 'Existence of runs: random numbers without ties are exhibited, for every fuel from some number on. The probability of a neighbourhood of a tour is not computed. For ou.py and ou2.py a change of the second parameter alone is left out because it fails between two zeros (C51_zero_ends_refuted). Prior and likelihood are arbitrary real functions.')
NOTES['C107'] = ('proved', 'The interpolation of seeds is left open (C107_instances: the sections are the instances with interpolate_skeleton) and the law is computed for paths that are already known, as in C97 and C106; that the interpolated path is the Brownian bridge of the layer is C95, C96, C99 to C101 and C103. The proposal is one draw with its two densities; the weights contain the forward density, so summing over the law of the proposal gives the balance of the whole update. A difference of discrepancies that is constant and positive on a part of the path is excluded, one that is negative there is not. That the error tends to zero with the batch size is C106_error; that it is not zero is C88_batches_refuted.')
NOTES['C106'] = ('proved', 'The interpolation of seeds is left open (C106_instance: update_sde_bridge is the instance with interpolate_skeleton) and the law is computed for a path that is already known, as in C97; that the interpolated path is the Brownian bridge of the layer is C95, C96, C99 to C101 and C103. The hypothesis on the time spent below a level excludes discrepancies that are constant, above their lower bound, on a part of the path. The bound is not claimed to be attained; that it is not zero is C88_batches_refuted.')
NOTES['C108'] = ('proved', 'That the share of time below a level varies continuously with the level stays a hypothesis: it is true of Brownian paths with probability one and false for paths that rest at a level. The positivity of the intensity is a hypothesis too; it holds by C51_positive unless the proposal leaves the first parameter of ou.py or ou2.py alone between two zeros. ou3.py is covered with its own discrepancy, whose derivative is halved (C54_refuted).')
NOTES['C109'] = ('proved', 'Full strength for the statement, on known paths. That the generators spawned from one seed sequence are independent is trusted; the law of independent jobs is the iterated average (SpecJobs), which C109_one_generator identifies with the jobs run one after the other on one generator. The law of each part is that of C106 and C107. C109_prior_refuted: the parallel parameter update is not reversible for a prior that ties regimes together; the package does not reject such a prior.')
NOTES['C110'] = ('proved', 'Full strength for the statement, for the switching sampler and with the sampler frozen at its present scale and covariance (adaptation changes the proposal law, C25). That multivariate_normal has an even density is trusted (section 4). The scalar sampler of the Ito module is not covered because its propose raises TypeError (C27, C104).')
NOTES['C111'] = ('proved', 'C111_uniform, C111_reversible and C111_only_uniform settle cut paths, C111_uncut settles uncut ones (given that the linear solver is right); C111_preserved_refuted is a concrete generator for which no initial law is kept by both. The law of the states at the cuts is summed over explicitly; the partition may be any with these states. Same reading of the draws as C89 and C90.')
NOTES['C112'] = ('proved', 'C112_path_law and C112_path_law_stationary give the exact joint law of the states and jump times; the claim about eval_loglik is false for every path (C112_loglik_is_log_density_refuted), C112_loglik gives the missing factor and C112_posterior the update that would be right.')
NOTES['C113'] = ('proved', 'C113_bridge and C113_given_end give the exact law of the states and jump times of a bridge, C113_backwards of a backward path, C113_mutate the joint law of all redrawn pieces, C113_reversible the balance of redrawing for whole paths; the bounds on the jump times are taken in order, which determines the law of the (ordered) jump times. As in C89 the law is the limit as the bound on the number of terms of sample_n_trans grows.')
NOTES['C114'] = ('proved', 'Stated for coins whose flips are independent draws from one law each, first a finite one (as C20 and C21) and in C114_sampler any; the count is carried as the state of the coins, so it counts the calls of next / send of the code. History dependent coins are covered by C22 only, which bounds their number by the budget.')
NOTES['C115'] = ('proved', 'The claim is false and its negation is proved for all inputs. A proposal that equals the present parameters has probability zero for the random walks of the package as long as their covariance is not singular and rounding is left aside.')
NOTES['C116'] = ('proved', 'On paths that are already known (the interpolation of skeletons is left open and then fixed to reading off a path; the instance theorems tie the programs to the code).')
