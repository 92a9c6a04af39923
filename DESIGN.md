# Formal model of timsf/ctbayes in Rocq — design

The model lives in `rocq/theories`. It is a shallow embedding: each Python function becomes a Gallina
function of the same name that follows its branches, with exceptions as values.

## 1. Conventions

* **Numbers.** Code that only adds, subtracts and compares times (`mjplib/skeleton.py`, splitting and pasting) is
  written over a small operations-only class `Num` and proved for the reals `R`. An IEEE binary64 instance (the
  standard library's `SpecFloat`) serves for rounding counterexamples (C19, C56). Analytic code is written directly
  over `R` (`exp`, `ln`, `sqrt`, `Rpower`). Rounding is otherwise out of scope: theorems are about exact arithmetic.
* **Infinities and NaN.** Bounds and values the code lets be infinite have the type `ext`; NaN entries and values are
  `None`. `ln 0` and division by zero are not silently totalised where the code can reach them: the model
  returns an explicit infinite or NaN value, or the theorem carries the side condition.
* **Exceptions.** `res A := Ok a | Raise e | NoFuel`. `NoFuel` is the explicit "still running" value of loops without
  a bound in the code. `returns` theorems hold for every fuel; termination theorems exhibit a sufficient fuel; laws
  are limits in the fuel.
* **Randomness.** `M A := oracle -> nat -> res A * nat`: a generator is an arbitrary sequence of draws plus a cursor;
  a draw names its distribution. `valid` oracles answer inside the support (closed at the ends numpy admits);
  theorems quantify over all of them (`holds`, `returns`, `safe`, `total`). Some need probability-one side conditions,
  written `_if G` (no uniform equal to 0, no ties); where such a condition is needed, a witness without it is given.
* **Support.** `can m P` / `feasible` (SpecCan): some sequence of draws, of positive density, makes `m` return in `P`.
* **Laws.** `average m h v` (SpecLaw): the mean of `h` over the draws of `m` exists and is `v`, obtained by integrating
  out every draw (Riemann integrals against the density of the requested distribution; sums and series for discrete
  draws; normal, gamma and inverse Gaussian weights are normalised by their own improper integral, `under`). `chance m A p` is `average` of an indicator. The densities in SpecLaw are the meaning given to
  numpy's distributions. Laws of coins also appear in a finitely supported version (SpecBf).
* **Files.** `Base Np Rng Mat` base; `M_*.v` models only (no proofs), each definition citing the lines it models;
  `Spec*.v` small independent vocabulary for the statements; `L_*.v` lemmas; `P_*.v` property theorems closed by
  `exact`, with `Print Assumptions`, and `Example`s showing that hypotheses are satisfiable.

## 2. Which code is modelled

| file in /repo/ctbayes | model | not modelled |
|---|---|---|
| mjplib/skeleton.py | M_mjp: every function and both methods | `expm`, `np.linalg.solve` are parameters (`linalg`) with the hypotheses `expm_exact`, `solve_ok`; the lru/dtype details of numpy |
| mjplib/inference.py | M_inf: every function | – |
| misc/bfactories.py | M_bf: both functions, exceptions included | – |
| misc/adapt.py | M_adapt: all functions and the three sampler classes | numpy's global generator is a map `mvn` from arguments to draws |
| misc/ars.py | M_ars: every function | `scipy.optimize.minimize` in `brace` is a parameter |
| misc/testing.py | M_euler | – |
| sdelib/hitting.py, layers.py | M_hit: every function; M_edges: compute_edges with any exponent | – |
| sdelib/transforms.py | M_path, M_hit | – |
| sdelib/paths.py, moments.py | M_path: every function | – |
| sdelib/interpolators.py | M_skel: fill_wiener_outer, fill_wiener_inner; M_est: fill_wiener_vector | fill_wiener_vector for arrays x of two dimensions |
| ea3lib/skeleton.py | M_skel: every function | – |
| ea3lib/seed.py | M_seed: every function | – |
| ito/models, switching/models | M_models, M_prior, M_euler: every function | cir.eval_inf_disc (fails for its arity, not called) |
| ito/static.py, ito/mcmc.py | M_ito, M_models, M_seed: every function, with arbitrary proposals; M_full: the chain with its adaptive samplers | – |
| switching/static.py, types.py, mcmc.py | M_sw, M_chain: every function, with arbitrary proposals; M_full: the chain with its adaptive samplers | a state outside its bounds, for which the code goes on with NaN, is an exception in M_full (never reached, C104_refines) |
| ito/mcem.py, switching/mcem.py | M_mcem: the EM loops, particles, objectives, generator update, buffered bounds; M_est: est_aug_lik, est_se | `minimize`, numdifftools' Hessian and Gradient and `np.linalg.inv` are parameters; np.cov of a single particle (NaN); arrays of bounds whose length differs from that of the parameter raise ValueError at once; printing |

`joblib`/`loky` jobs are run one after the other, each with its own oracle (the generators the code spawns). Timing,
memory, plotting, dtype rules and the quality of pseudo-random numbers are not modelled.

## 3. Per-property plan

| id | modelled | proof |
|----|----------|-------|
| C01–C03, C19, C84 | partition_skeleton, paste_partition, repartition_skeleton, equality over lists with searchsorted, slices, masks | induction on breaks and pieces, via the path the skeleton denotes; binary64 witness by computation |
| C04, C05, C69, C70, C83 | sampler loops with fuel and oracle | loop invariants by induction on fuel |
| C06 | P = I + Q/q, powers, choice vector | induction on the power; stochasticity |
| C07 | mutate_partition, regime proposals | composition of C02, C03, C05 |
| C08–C10 | batched generator as remaining work; sorting of rows | induction on remaining points; witness for C09; permutation and sortedness |
| C11, C12 | finite matrices as functions on indices below n | algebra on finite sums; witnesses |
| C13–C16, C73 | update, eval_loglik, eval_logprior, get_mode, M-step | induction on the path; concavity of a ln x − b x; law and mean of the generator drawn by the Gibbs step |
| C17, C18 | Skeleton.__call__, est_stat | searchsorted lemmas |
| C20–C22, C65, C77 | two-coin loop | induction on the budget; integration of the draws; detailed balance by algebra |
| C23, C24 | transforms on cases of bounds | monotone bijections, derivatives; refutation for two finite bounds |
| C25–C28, C66, C68 | sampler records and adapt | invariants over call histories; witnesses; C25_proposal and C25_covariance say which normal law is proposed from, added after an edit without the scale had survived |
| C29–C31 | hulls on support lists | tangent and chord inequalities; loop invariant |
| C32, C33, C67 | cdf, ppf, inverse Gaussian step | monotonicity of exp, ln, sqrt |
| C95 | sample_wiener, sample_brownbr as maps of normal draws | normal moment generating function, induction on the grid |
| C96 | sample_brownbr_min | integration of the three draws; change of variables in improper integrals; both branches have equal weight by a total derivative |
| C97 | est_aug_lik of both mcem.py (and seed.est_poisson_coin) with the interpolation of skeletons as a parameter | on a known path the points of the Poisson process give exp of minus the integral (C88); product over the segments; the code is the instance with interpolate_skeleton; the second moment is the same integral for the square of the weights |
| C98 | est_se of both mcem.py with differentiation and matrix inverse as parameters | clipping lemma of C63; minimum of a list; sums of squares; for Louis' identity, a point that touches no bound has a neighbourhood inside the box, where clipping changes nothing, and derivatives are linear |
| C99 | fill_wiener_vector | positions found by searchsorted; insertion at one place; law of the bridge from C95; failure elsewhere by inversion of the run |
| C34–C36, C94 | series as real sequences, decision loops | alternating series bracket the limit, via the heat equation's minimum principle; integration of the uniform; explicit counterexample for C36 |
| C101 | sample_layer | nested intervals have ordered escape probabilities; the layer is a step function of the seed whose thresholds converge to them; induction over the attempts |
| C102 | sample (ars.py): one iteration, the loop with a full hull, the loop while the hull adapts | the point drawn is the quantile of the hull, change of variables over the whole range (monotone acceptance probability in the tails), induction over the iterations; for the adapting hull the mean of (indicator - target probability) times any function of the earlier values is zero at every hull, so no integral over hulls is needed |
| C103 | sample_anchor, layerbr_min_loop, edges_loop | both sectors have the level of the layer, so the ratio is 1/2; reflection and time reversal of the escape series for mirrored bounds; partial sums of the alternating series separate the two probabilities in the refutation; flags and coin by the laws of C94 |
| C104 | M_full: both chains with the state of the parameter samplers threaded through | invariant: every sampler stands at the parameters of its regime and these are admissible; step-by-step simulation by the chain with arbitrary proposals (refinement, exceptions included); induction on the iterations for the history of each sampler; C25 and C58 then apply; the Ito chain raises TypeError at its first proposal |
| C105 | as C58 and C104; nothing new is modelled | a calculus of runs with chosen draws: each random function can return each value in its range with finitely many draws that avoid a given set (so that no ties arise), and such runs compose; coins succeed with quiet generators, paths and generators are hit through their inverse transforms, samplers through the inverse of transform_to_const; induction over the stops |
| C106 | flip_poisson_coin, flip_sde_coins and update_sde_bridge with the interpolation of seeds left open (SpecExact); nothing else is new | the probability of the coin is built batch by batch: the value from a state of the generator is an integral against a beta density, uniformly continuous in the state by induction over the batches, so every mean exists; up to one batch it is the value of C88, beyond that both lie between 0 and 1, and the Poisson series is split there; the integral of the share below a level is found by comparing lower and upper sums; coins that leave the state alone reduce the update to the memoryless sampler of C20 |
| C107 | flip_dual_coin, flip_hidden_coins, update_hidden_section, update_params_section, ito update_params with the interpolation of seeds left open (SpecExact2); nothing else is new | the dual coin on known paths is the coin of C106 for the positive part of a difference; coins that leave the state alone multiply their probabilities over the pieces (induction over the list of coins), the error of a product of numbers in [0,1] is at most the sum of the errors; the loop of sample_twocoin_joint with such coins is the memoryless loop of C20; the weights of the two directions are exchanged because the intensities are symmetric in the two parameters |
| C108 | the models ou.py, ou2.py, ou3.py of the switching sampler and ou.py of the Ito sampler inside the sections of C106 and C107; nothing new is modelled | a continuous path composed with a continuous discrepancy is integrable; the levels come from C49, the intensity from the mean value bound of C51 applied at every point of the path; the difference of the two positive parts is the difference of the discrepancies, so their integrals subtract |
| C109 | the jobs of update_hidden, update_sde and update_params with the interpolation of seeds left open, and the assembly of the rows (assemble); the pool is the iterated average over independent generators (SpecJobs) | induction over the number of jobs gives the product law over all combinations; detailed balance of a product is the product of the balances of C106 and C107; a parameter section depends on its own row only and, for a prior that is a sum, its acceptance does not depend on the other rows; counterexample with two regimes absent from the hidden state, where acceptance is exactly Barker's |
| C110 | the proposal of MyopicMvRwSampler (sampler_propose) inside the parameter section of C107; nothing new is modelled | the Jacobian of the constraining map is the exponential of minus the returned logarithm; the sum over coordinates turns the product of derivatives into the factor of the acceptance rate, and evenness cancels the densities of the increments; substitution in the integral for one coordinate |
| C111 | mutate_partition as in C90; nothing new is modelled | the series of the matrix exponential satisfies the forward and the backward equation, hence the semigroup property; the product of C90 times the law of the states at the cuts telescopes, and the sum over the states at each cut is the semigroup property again; with one cut the law of the first state is moved by a positive matrix whose columns sum to one, which keeps constant vectors only (maximum principle); without cuts C90_mutate_single and the uniqueness of the stationary law |
| C112 | sample_forwards, eval_loglik, update and eval_logprior as in C06, C14, C15; nothing new is modelled | induction on the states still to be visited: the race of exponential clocks is integrated out for the next jump (law of the winner and of its time), the rest is the induction hypothesis; the value is continuous in the starting time, so the iterated integrals exist; eval_loglik by induction on the jumps |
| C113 | sample_bridge, sample_n_trans, bridge_states, bridge_rest, sample_backwards, mutate_partition as in C05, C89, C90; nothing new is modelled | the position along the sequence of states is itself a jump process with its own generator (positions 0..K, then two states for having left the sequence, with the same rate bound); the states drawn by the bridge, read as positions, have the law of its uniformised chain (induction on the steps); a path follows the sequence within the bounds iff the positions seen at the bounds are large enough and the last one is K, a finite sum of finite-dimensional events whose series is summed as in C89; the same sum for forward simulation of the position process is identified by C112 and C89; the balance of redrawing is an induction over the pieces |
| C114 | twocoin, twocoin_joint (as in C20) over finite distributions, with coins whose state counts the flips | one step of the loop as a recursion for expectations of functions of the count, solved by induction on the budget (tail, mean); the bound and the limit follow from the geometric sum, the loss from C21_acceptance_value; the counted and the uncounted loop agree by induction |
| C115 | sample_forwards, mutate_partition (as in C04, C111), flip_param_coin of both samplers and flip_param_coins (as in C51, C59); nothing new is modelled | the list of holding times is empty; the mask of changed parameters is empty, so that the intensity is an empty sum; induction over the pieces |
| C116 | supports, est_log_aug_lik and update_objective of ito and switching (as in C75), with the interpolation of skeletons left open (SpecObj.v, tied to the model by the instance theorems) and fixed to reading off a path | sorting does not change a mean; the uniform draws are integrated out one after the other with a constant carried along; induction over segments; the variance is carried along the same induction |
| C37, C38 | compute_edges, sample_layer, sample_anchor | monotonicity and limits |
| C39–C41 | samplers as affine maps of draws; layered proposals; reversal, reflection, pivoting | finite sums algebra; invariants on values and flags |
| C42–C45 | fill_wiener, interpolate_skeleton, flip_skeleton | merge lemmas; invariant over histories of any length |
| C46–C48 | raw skeletons and seeds, bounds on the path, normalising operators | real algebra; witness for one-sided bounds |
| C49–C54, C81, C82, C91, C93 | model functions, priors, likelihoods, end point density | calculus (Coquelicot), refutations by parameters |
| C55, C72, C78 | coin loops | induction on batches |
| C56–C60 | split and paste of hidden states, updates | list induction; invariant over histories |
| C61–C64, C74–C76 | MCEM loops | induction over iterations |
| C79, C80, C85 | the two Markov chains | invariants over iterations |
| C86, C87 | feasibility of the exact samplers; reachable paths | explicit scripts of draws, composed by the rules of `can` |
| C88–C90 | Poisson coins and point process, finite-dimensional laws of jump processes and of redrawn partitions | integrating out the draws; limits in the number of transitions |
| C92 | euler_simulate | induction on the steps; joint law of the increments by integrating the normal draws one at a time |
| C100 | sample_bessel, sample_besselbr | Laplace transform of a non-central chi-square, coordinates integrated one at a time |

Nothing in the list had to be left out as inexpressible; the claims that are false are refuted in the stated
generality (the note of the claim in MANIFEST.json names the theorem).

## 4. Trusted base

* Coq 8.16.1's kernel. No axioms of our own, no plugins, no `Admitted`.
* `Print Assumptions` lists only axioms of the standard library: `ClassicalDedekindReals.sig_forall_dec` and
  `sig_not_dec` (the reals), `FunctionalExtensionality.functional_extensionality_dep`, `Classical_Prop.classic` and
  `ClassicalEpsilon.constructive_indefinite_description` (pulled in by Coquelicot). `ASSUMPTIONS.md` gives the list
  for each theorem; it is generated from a build by `tools/assumptions.py`.
* The faithfulness of the hand-written model to the Python source: the comments cite the lines; simplifications are
  said there.
* Parameters with hypotheses: the matrix exponential is exact (`expm_exact`), the linear solver returns a
  solution when there is one (`solve_ok`), `minimize` returns some point (nothing else is assumed).
* The draws of numpy.random.multivariate_normal around a mean have a density that is even in the increment (C110).
* Generators spawned from one seed sequence are independent of each other and of their parent (C109); everything
  proved of a job holds for every oracle, so only C109 uses this.
* Specifications that stand for classical mathematics outside the model: the series in SpecHit are the escape
  probabilities of Brownian and Bessel(3) bridges; the weight in SpecArg is the density of the time of a minimum; the densities in SpecLaw are those of numpy's distributions; the
  law of a jump process is given by its transition matrices (SpecFdd).

## 5. Disagreements between the code and the properties

Each item is a theorem (name in parentheses) unless marked "noted".

Jump processes
* Partition and paste lose a jump time in binary64 (C19_roundtrip_binary64_refuted); so do hidden states
  (C56_binary64_refuted).
* The batched Poisson process returns heights above its bound and the wrong law after the first batch
  (C09_batches_in_bounds_refuted, C88_batches_refuted); every coin whose point count exceeds the batch size is affected.
* A uniform equal to 0 makes a bridge miss its end point (C05_zero_uniform_refuted).
* `update` and `eval_loglik` drop the sojourn after the last jump (C14_full_horizon_refuted), so `eval_loglik` exceeds the log density of the simulated paths for every path
  (C112_loglik_is_log_density_refuted).
* A negative evaluation time yields the last state (C17_negative_time_wraps).
* sample_backwards and the first piece of mutate_partition start from the uniform law on states, not from the
  stationary one (C90_stationary_refuted, C90_backwards_stationary_iff). A regime proposal without conditioning times
  starts from the stationary law instead, so the proposals of one chain belong to two different priors for the first
  regime (C111_only_uniform, C111_uncut, C111_preserved_refuted).
* With one state sample_forwards raises ValueError (argmin of an empty array), so that no path over one regime can be redrawn
  (C115_single_refuted, C115_single_redraw_refuted).
* Short series: with two or three observations the regime sampler raises ValueError (C68_short_series_raises).
* The default shape a0 = 1 gives unobserved transitions rate zero in the M-step (C73_default_refuted).

Bridges, layers, skeletons
* cdf_brownbr_min is negative below its lower bound (C32_outside_refuted).
* sample_layerbr_min only exhausts its budget when the upper bound is the larger end point (C33).
* The outer-bounded escape decision is wrong when an odd partial sum of the denominator exceeds 1 (C36_refuted).
* With both end points at the infimum and an upper bound sample_layerbr never returns
  (C40_both_ends_at_infimum_refuted); reflect rejects an empty array (C41_reflect_empty_refuted).
* sample_raw_skeleton ignores lo_anchor and flips with probability 1/2, so that flipped raw skeletons and seeds
  can violate one-sided bounds (C46_one_sided_refuted, C48_raw_outside_refuted).
* Hit flags are dropped when all requested times are stored (C43_lost_refuted), and in every round of the dual coin
  (C43_dual_refuted).
* A discrepancy that is constant on the layer makes the seed coin raise AssertionError (C55_seed_flat_refuted).

Parameter samplers and Bernoulli factories
* Two finite bounds are treated as no bounds (C24_bounded_proposal_refuted).
* The scalar random-walk sampler always raises TypeError (C27); both samplers use numpy's global generator
  (C66_reproducible_refuted).
* Adaptation windows overlap (C26_single_window_refuted); the documented counts of seq_update_normal are off
  (C28_doctest_count_wrong, C28_sample_covariance_refuted).
* A uniform equal to 0 wraps the index in sample_envelope (C30_zero_draw_refuted).
* The Ito pre-coin leaves out the likelihood, which breaks detailed balance (C65_ito_precoin_refuted).

Models
* eval_inf_disc of the third switching model is twice the smallest value of the discrepancy (C49_infimum3_refuted).
* CIR: the lower bound on the discrepancy is wrong when 4κμ < σ² (C50_refuted); it is NaN when 4κμ = 3σ²; the gradient bound
  is zero, so that the dual coin always raises AssertionError (C52_refuted); the end point density is not log-concave
  for small κμ (C82_cir_refuted); eval_inf_disc has the wrong arity (noted).
* OU: the dual coin fails between two zero end points when only the second parameter changes (C51_zero_ends_refuted);
  eval_grad is wrong in the mean reversion and violates eval_bounds_grad (C93_bet_refuted, C93_bound_refuted).
* ou3: drift, its primitive and its derivative are incoherent (C54_refuted, C54_arrays_refuted).
* The log priors are NaN at zero parameters (C91_nan_refuted).
* Proposing an unchanged parameter gives intensity 0 and an AssertionError (C115_same_ito_refuted, C115_same_switching_refuted).

EM and tools
* ito maximize_posterior restarts every M-step from init_thi (C62_ito_refuted).
* switching: buffer_bounds is called with the number of regimes (C63_regimes_refuted); the initial generator is not
  symmetric in the hyper-prior (C64_asymmetric_refuted); particles and sampler get out of step under thinning
  (C74_thinning_refuted); the objective adds the prior once per regime (C76); learning rates below one can stall
  the number of particles (C61_slow_refuted).
* est_aug_lik is -inf when the discrepancy has no finite upper bound on one segment (C97_ito_infinite_refuted,
  C97_switching_infinite_refuted).
* est_se clips the argument of the objective, so that differences with steps beyond a bound are wrong
  (C98_step_refuted); for switching models without bounds it raises unless the number of regimes is the number of
  parameters (C98_regimes_refuted).
* both E-steps build their own sampler controls: ito passes n_cores as opt_acc_prob and switching passes none, so that the
  portkey probability, batch size and pre-coin are always the defaults (noted; update_sde does not read opt_acc_prob).
* fill_wiener_vector returns only if all new times lie strictly inside one interval of the grid
  (C99_spread_refuted); its doctest, with x of shape (n, 1), fails (noted).
* sample_anchor always tosses a fair coin, which is wrong for bounds that are not mirrored (C103_refuted).
* the Ito chain with its own samplers raises TypeError in its first iteration (C104_ito_refuted, after C27).
* the parameters of all regimes are accepted at once against their common old values, which is reversible only if the
  prior makes the regimes independent (C109_params, C109_prior_refuted); eval_log_prior is a free field of Model.
* euler_simulate returns one time too few when the horizon is a multiple of the step (C92_lengths_iff).

## 6. Wrong programs

`seeded/LOG.jsonl` records the edits of the model tried in a scratch copy, the theorems that failed, and the theorems
added or tightened after an edit had survived.

* A theorem counts as failed if its own proof fails, or if it rests on a lemma whose proof fails. Failed proofs are
  replaced by `Admitted` in the scratch copy until everything else builds, so one broken lemma does not hide the rest.
  A failed proof is weaker evidence than a refuted statement: a proof can also break because of the shape of a term.
* Most edits rebuild every property file. Entries whose note names property files only rebuilt those.
* An edit that broke a claim and failed no theorem led to a new or stronger theorem, named in `theorems_tightened`;
  `theorems_failed_after_tightening` is the second run.
* Two edits still fail no theorem. `fu12` edits code that is never reached. `q06` does not change the program:
  the two probabilities it exchanges are equal, which is C103.
* 90 of the 490 theorems never failed in a logged edit, so nothing is known about them in this respect.
