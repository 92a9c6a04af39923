{"id": "C01", "title": "Partition then paste is the identity", "statement": "For every jump-process skeleton that starts at time 0, has strictly increasing jump times below its horizon and never jumps to its own state, and for every sorted array of break times in [0, horizon] (including breaks at 0, at the horizon, repeated breaks and breaks that fall exactly on a jump), paste_partition(partition_skeleton(skel, breaks)) has exactly the same jump times, states and horizon as skel.", "quantifier": "all well-formed skeletons (any number of jumps) and all sorted break arrays of any length, in exact arithmetic", "why_tests_cant": "The doctests only draw random breaks, so coincidences between breaks, jumps, 0 and the horizon have probability zero and are never exercised.", "anchors": ["ctbayes/mjplib/skeleton.py:partition_skeleton", "ctbayes/mjplib/skeleton.py:paste_partition"]}
{"id": "C02", "title": "Partition pieces are restrictions of the path", "statement": "partition_skeleton(skel, breaks) returns len(breaks)+1 pieces; piece k has duration equal to the gap between consecutive breaks (with 0 and the horizon added), its first jump time is 0, and evaluating piece k at any offset s in [0, duration) gives the same state as evaluating skel at break_k + s; the durations add up to the horizon. repartition_skeleton(pieces, breaks) does the same to the path the pieces represent.", "quantifier": "all well-formed skeletons, all sorted break arrays in [0, horizon], all pieces and all offsets", "why_tests_cant": "It is a statement about every offset of every piece (a continuum), with boundary cases at jumps on breaks.", "anchors": ["ctbayes/mjplib/skeleton.py:partition_skeleton", "ctbayes/mjplib/skeleton.py:repartition_skeleton", "ctbayes/mjplib/skeleton.py:Skeleton.__call__"]}
{"id": "C03", "title": "Pasting concatenates paths and removes virtual jumps", "statement": "For every non-empty list of skeletons each starting at time 0 with jump times below its own duration, at least one of them of positive duration, paste_partition returns a path whose horizon is the sum of the durations, whose value at (sum of the first k durations)+s is the value of piece k at s, whose jump times are strictly increasing, and in which no two consecutive states are equal; pieces of duration 0 contribute nothing.", "quantifier": "all lists of well-formed pieces of any length and all evaluation times", "why_tests_cant": "Universally quantified over lists of paths and evaluation times.", "anchors": ["ctbayes/mjplib/skeleton.py:paste_partition", "ctbayes/mjplib/skeleton.py:Skeleton.__call__"]}
{"id": "C04", "title": "Forward simulation returns a well-formed path", "statement": "For a positive horizon, a state space with at least two states and any draws, if sample_forwards returns, its result starts at time 0 in the requested initial state, has strictly increasing jump times all below the horizon, every state is a valid state index, consecutive states differ, and the horizon is the one requested.", "quantifier": "all horizons, generators with positive off-diagonal rates, initial states, and all sequences of random draws (any number of jumps)", "why_tests_cant": "The number of jumps is unbounded and the claim must hold for every sequence of exponential draws.", "anchors": ["ctbayes/mjplib/skeleton.py:sample_forwards"]}
{"id": "C05", "title": "Bridge simulation hits both endpoints", "statement": "If sample_bridge returns, its path starts in init_x at time 0, ends in fin_x, has sorted times in [0, horizon), never lists two equal consecutive states, and has the requested horizon; sample_backwards ends in fin_x. (For the uniform draw being exactly 0.0 the returned path of sample_bridge ignores fin_x: see theorem C05_zero_uniform_refuted.)", "quantifier": "all generators, endpoints, horizons and all draws", "why_tests_cant": "Quantifies over all random draws including the measure-zero value 0.0 which a random test never sees.", "anchors": ["ctbayes/mjplib/skeleton.py:sample_bridge", "ctbayes/mjplib/skeleton.py:sample_backwards"]}
{"id": "C06", "title": "Bridge step probabilities are probability vectors", "statement": "In sample_bridge, for every generator with a positive maximal rate, the matrix used for a discrete transition is stochastic; at every step at which the remaining number of transitions can reach fin_x, the vector handed to Generator.choice is non-negative and sums to 1, and any state with positive probability can again reach fin_x in the remaining number of steps, so no later step divides by zero.", "quantifier": "all generators of any dimension, all endpoints, all numbers of transitions and all intermediate states", "why_tests_cant": "Needs matrix-power identities for every power and dimension.", "anchors": ["ctbayes/mjplib/skeleton.py:sample_bridge"]}
{"id": "C07", "title": "Regime proposals keep the state at every conditioning time", "statement": "mutate_partition returns one piece per input piece with the same durations; every piece except the first starts in the same state as before and every piece except the last ends in the same state as before; hence the path proposed by the regime sampler (partition at conditioning times, mutate, paste) is well formed, has the same horizon and has the same state as the current path at every conditioning time.", "quantifier": "all partitions of any length and all random draws of the piecewise samplers", "why_tests_cant": "Quantifies over partitions, generators and all random draws.", "anchors": ["ctbayes/mjplib/skeleton.py:mutate_partition", "ctbayes/misc/adapt.py:MyopicMjpSampler.propose"]}
{"id": "C08", "title": "Batched Poisson process delivers all its points in order", "statement": "sample_batch_ppp yields batches that contain exactly the drawn number of points in total, every batch except possibly the last has exactly batch_size points and the last is non-empty, the first coordinate is non-decreasing within and across batches and non-negative, and every other coordinate lies in [0, its bound).", "quantifier": "all intensities, bounds of any dimension, batch sizes and all draws", "why_tests_cant": "The batch loop is unbounded and the claim is for all draws.", "anchors": ["ctbayes/mjplib/skeleton.py:sample_batch_ppp"]}
{"id": "C09", "title": "Batched Poisson process stays inside its bounds", "statement": "Every point yielded by sample_batch_ppp has its first coordinate within [0, bounds[0]]. (Violated: successive batches add independent Beta increments of the full range.)", "quantifier": "all draws", "why_tests_cant": "A statistical test of the law of many points cannot see a few points outside the box.", "anchors": ["ctbayes/mjplib/skeleton.py:sample_batch_ppp"]}
{"id": "C10", "title": "Unbatched Poisson process stays inside its bounds, sorted", "statement": "sample_ppp returns exactly the drawn number of points, every coordinate within [0, bound), and rows sorted by the first coordinate with each row kept intact (the result is a permutation of the drawn rows).", "quantifier": "all intensities, bounds and draws", "why_tests_cant": "Quantifies over all draws and sizes.", "anchors": ["ctbayes/mjplib/skeleton.py:sample_ppp"]}
{"id": "C11", "title": "Stationary distribution", "statement": "For every generator matrix (rows summing to 0), any vector solving the linear system built by get_stat sums to 1 and is stationary (its product with the generator is 0); conversely every stationary vector summing to 1 solves that system, and the system is non-singular exactly when the stationary vector is unique.", "quantifier": "all generators of any dimension", "why_tests_cant": "Universally quantified over matrices of any dimension.", "anchors": ["ctbayes/mjplib/skeleton.py:get_stat"]}
{"id": "C12", "title": "Constructed generators are valid", "statement": "sample_trial_generator, sample_param, get_ev and get_mode (with shape parameters above 1) return matrices whose off-diagonal entries are positive and whose rows sum to 0, provided the off-diagonal hyper-parameters are positive; the NaN diagonal of the hyper-parameters never leaks into the result.", "quantifier": "all dimensions, hyper-parameters and draws", "why_tests_cant": "Universally quantified over matrices and draws; NaN handling has to be exact.", "anchors": ["ctbayes/mjplib/skeleton.py:sample_trial_generator", "ctbayes/mjplib/inference.py:sample_param", "ctbayes/mjplib/inference.py:get_ev", "ctbayes/mjplib/inference.py:get_mode"]}
{"id": "C13", "title": "Posterior counts are exact sufficient statistics", "statement": "update adds to the prior shape of (i, j) exactly the number of i-to-j jumps of the skeleton and to the prior rate of row i exactly the time spent in state i before the last jump; the counts over all pairs add up to the number of jumps and the times add up to the last jump time.", "quantifier": "all skeletons with any number of jumps and any state space size", "why_tests_cant": "Counting identities over unbounded paths.", "anchors": ["ctbayes/mjplib/inference.py:update"]}
{"id": "C14", "title": "All observed time is used in the posterior update", "statement": "The holding times credited by update add up to the full observation horizon of the skeleton, as est_stat counts it. (Violated: the sojourn after the last jump is credited with length 0.)", "quantifier": "all skeletons", "why_tests_cant": "A long simulated path hides the missing final sojourn.", "anchors": ["ctbayes/mjplib/inference.py:update", "ctbayes/mjplib/skeleton.py:est_stat"]}
{"id": "C15", "title": "Gamma conjugacy is exact", "statement": "For every skeleton, prior and generator matrix whose rows sum to zero and whose off-diagonal entries are positive, the unnormalised log prior evaluated at the updated hyper-parameters equals the log prior at the original hyper-parameters plus eval_loglik of the skeleton. sample_param draws the off-diagonal entries independently from the gamma distributions with these shapes and rates.", "quantifier": "all skeletons, hyper-parameters and generators of any dimension", "why_tests_cant": "Exact functional identity over unbounded paths and matrices.", "anchors": ["ctbayes/mjplib/inference.py:update", "ctbayes/mjplib/inference.py:eval_loglik", "ctbayes/mjplib/inference.py:eval_logprior"]}
{"id": "C16", "title": "get_mode maximises the prior/posterior density", "statement": "For shape parameters above 1 and positive rates, no generator with positive off-diagonal entries has larger eval_logprior than the one returned by get_mode; and get_ev is the mean of what sample_param returns.", "quantifier": "all competitor generators, dimensions and hyper-parameters", "why_tests_cant": "Global optimality over a continuum.", "anchors": ["ctbayes/mjplib/inference.py:get_mode", "ctbayes/mjplib/inference.py:get_ev", "ctbayes/mjplib/inference.py:eval_logprior", "ctbayes/mjplib/inference.py:sample_param"]}
{"id": "C17", "title": "Skeleton evaluation", "statement": "Calling a well-formed skeleton at times in [0, horizon] returns at each time the state entered at the latest jump not after it (right-continuous); a time beyond the horizon raises ValueError for the whole call.", "quantifier": "all well-formed skeletons and all arrays of evaluation times", "why_tests_cant": "Quantifies over a continuum of evaluation times.", "anchors": ["ctbayes/mjplib/skeleton.py:Skeleton.__call__"]}
{"id": "C18", "title": "Occupation fractions", "statement": "est_stat returns, for every requested state, the exact fraction of [0, horizon] the path spends in it; the fractions are non-negative and add up to 1 over any duplicate-free list of states covering the path.", "quantifier": "all well-formed skeletons and state lists", "why_tests_cant": "Exact identity over unbounded paths.", "anchors": ["ctbayes/mjplib/skeleton.py:est_stat"]}
{"id": "C19", "title": "Round trip in binary64", "statement": "The doctests of partition_skeleton and paste_partition assert exact equality of jump times after the round trip in floating point. (Violated in IEEE binary64: subtracting and re-adding a break time rounds.)", "quantifier": "all skeletons and breaks with binary64 entries", "why_tests_cant": "A random doctest passes or fails by luck.", "anchors": ["ctbayes/mjplib/skeleton.py:partition_skeleton", "ctbayes/mjplib/skeleton.py:paste_partition"]}
{"id": "C20", "title": "Two-coin Bernoulli factory has the advertised law", "statement": "With no portkey, for independent coins with success probabilities p1, p2, conditionally on not exhausting its budget sample_twocoin returns True with probability exactly w1*p1/(w1*p1+w2*p2) (weights passed as logs), for every budget of at least one proposal; the probability of exhausting the budget tends to 0.", "quantifier": "all log-weights, success probabilities (not both zero) and budgets", "why_tests_cant": "An exact probability law for all parameters cannot be established by sampling.", "anchors": ["ctbayes/misc/bfactories.py:sample_twocoin", "ctbayes/misc/bfactories.py:sample_twocoin_joint"]}
{"id": "C21", "title": "Portkey acceptance satisfies detailed balance", "statement": "For every escape probability in [0,1], the acceptance probabilities of sample_twocoin with the roles of the two coins exchanged satisfy w2*p2*A(1 over 2) = w1*p1*A(2 over 1); the same holds when a Barker pre-coin on the weights is flipped first and the two-coin step is run with equal weights.", "quantifier": "all weights, success probabilities, escape probabilities and budgets", "why_tests_cant": "An exact identity between probabilities for all parameters.", "anchors": ["ctbayes/misc/bfactories.py:sample_twocoin", "ctbayes/misc/bfactories.py:sample_twocoin_joint", "ctbayes/switching/mcmc.py:update_params_section", "ctbayes/switching/mcmc.py:update_hidden_section"]}
{"id": "C22", "title": "Two-coin return contract", "statement": "When sample_twocoin returns (True, False, v), v is what coin 1 yielded at its latest flip and that flip succeeded; (False, False, v) the same for coin 2; (False, True, v) means v is the given fallback and the latest flip failed; it raises BudgetConstraintError exactly when all allowed proposals failed without escape; every proposal flips exactly one coin; with escape probability 0 it never escapes.", "quantifier": "all coins (stateful iterators), all draws, all budgets", "why_tests_cant": "Quantifies over all draw sequences and stateful iterators.", "anchors": ["ctbayes/misc/bfactories.py:sample_twocoin", "ctbayes/misc/bfactories.py:sample_twocoin_joint"]}
{"id": "C23", "title": "Parameter transforms", "statement": "transform_to_const inverts transform_to_reals on the constrained side and vice versa for every combination of bounds; when exactly one bound is finite the constrained value is strictly inside the bounds for every real input; the log-Jacobians returned by the two directions agree at corresponding points and equal minus the log of the absolute derivative of the constraining map.", "quantifier": "all reals and all bound combinations", "why_tests_cant": "Quantifies over reals and needs derivatives.", "anchors": ["ctbayes/misc/adapt.py:transform_to_reals", "ctbayes/misc/adapt.py:transform_to_const"]}
{"id": "C24", "title": "Proposals respect two finite bounds", "statement": "For two finite bounds, transform_to_const maps every real to a value between the bounds. (Violated: two finite bounds are treated as no bounds, as for the CIR model.)", "quantifier": "all reals", "why_tests_cant": "Random-walk tests rarely step over the bound.", "anchors": ["ctbayes/misc/adapt.py:transform_to_reals", "ctbayes/misc/adapt.py:transform_to_const", "ctbayes/ito/models/cir.py:bounds_thi"]}
{"id": "C25", "title": "Adaptation schedule", "statement": "For every sequence of adapt calls on MyopicMvRwSampler / MyopicRwSampler / MyopicMjpSampler with growth exponent 1, scale updates happen exactly after 1, 3, 6, 10, ... calls (triangular numbers), one per period and never skipped; the k-th update changes the log scale by at most (k+1)^(-decay) in absolute value when acceptance probabilities are in [0,1]; between updates the scale does not change; the state is always the last sample. An update of the hidden state of the switching chain teaches the sampler of the regime path the share of accepted sections, one section per stretch between two conditioning times, and the new path. A proposal of MyopicMvRwSampler is one normal draw around the state without its bounds, whose covariance is the learned one times the exponential of the latest log scale; the learned covariance is that of the samples up to the last scale update.", "quantifier": "all histories of adapt calls; all updates of the hidden state that return", "why_tests_cant": "Invariant over all call histories.", "anchors": ["ctbayes/switching/mcmc.py:update_hidden", "ctbayes/misc/adapt.py:MyopicMvRwSampler.adapt", "ctbayes/misc/adapt.py:MyopicRwSampler.adapt", "ctbayes/misc/adapt.py:MyopicMjpSampler.adapt"]}
{"id": "C26", "title": "Each acceptance indicator enters exactly one adaptation window", "statement": "Every recorded acceptance probability is averaged in exactly one scale update. (Violated: consecutive windows overlap in one entry and the first contains the artificial initial value.)", "quantifier": "all histories of adapt calls", "why_tests_cant": "Only an inspection of every window reveals the overlap.", "anchors": ["ctbayes/misc/adapt.py:MyopicMvRwSampler.adapt", "ctbayes/misc/adapt.py:MyopicRwSampler.adapt"]}
{"id": "C27", "title": "Scalar random-walk proposals are usable", "statement": "MyopicRwSampler.propose returns a proposal with its log densities for every state within bounds. (Violated: it sums a float and always raises TypeError, so ito.sample_posterior never yields.)", "quantifier": "all states, bounds and draws", "why_tests_cant": "The integration test that would reveal it takes 11000 iterations and is not run.", "anchors": ["ctbayes/misc/adapt.py:MyopicRwSampler.propose", "ctbayes/ito/mcmc.py:update_params"]}
{"id": "C28", "title": "Sequential mean and covariance", "statement": "Folding seq_update_normal with n = number of observations including the new one gives exactly the sample mean; the covariance estimate stays symmetric and positive semi-definite for n >= 1. Called with n = number of previous observations, as its doctest does, it does not give the sample mean (refuted).", "quantifier": "all sequences of observations of any length and dimension", "why_tests_cant": "Induction over sequences of unbounded length.", "anchors": ["ctbayes/misc/adapt.py:seq_update_normal", "ctbayes/misc/adapt.py:MyopicMvRwSampler.adapt"]}
{"id": "C29", "title": "ARS hulls enclose the target", "statement": "For every concave differentiable log density and every strictly increasing set of support points, the lower hull is at most the log density and the upper hull at least the log density everywhere between the bounds, and the hull intersection points lie between neighbouring supports when the derivative is strictly decreasing.", "quantifier": "all concave functions, supports and evaluation points", "why_tests_cant": "Quantifies over functions and a continuum of points.", "anchors": ["ctbayes/misc/ars.py:eval_lower", "ctbayes/misc/ars.py:eval_upper", "ctbayes/misc/ars.py:gen_upper"]}
{"id": "C30", "title": "ARS envelope sampling inverts the envelope distribution function", "statement": "sample_envelope returns a point of the segment picked by its uniform draw, and the mass of the piecewise-exponential envelope below the returned point is exactly the drawn fraction of the total mass.", "quantifier": "all supports with non-zero slopes, all intersection points, all draws in (0,1)", "why_tests_cant": "An exact inverse-CDF identity for all parameters.", "anchors": ["ctbayes/misc/ars.py:sample_envelope"]}
{"id": "C31", "title": "ARS loop invariant", "statement": "Throughout ars.sample the support arrays stay sorted, of equal length, consistent with f and df, never exceed max_points (if they start below it), supports are only added after a rejection, and at most max_draws values are yielded, each of which passed z < f(x) - upper(x) or the squeeze test (which implies it for concave f).", "quantifier": "all concave targets, draws and iteration counts", "why_tests_cant": "Invariant over unbounded executions.", "anchors": ["ctbayes/misc/ars.py:sample"]}
{"id": "C32", "title": "Bridge minimum distribution functions", "statement": "cdf_brownbr_min is a distribution function: values in [0,1], non-decreasing, 0 at the lower and 1 at the upper bound; ppf_brownbr_min is its exact inverse, is increasing, and maps (0,1) strictly inside the bounds.", "quantifier": "all endpoints, durations, bounds and arguments", "why_tests_cant": "Exact inverse/monotonicity over reals.", "anchors": ["ctbayes/sdelib/hitting.py:cdf_brownbr_min", "ctbayes/sdelib/hitting.py:ppf_brownbr_min"]}
{"id": "C33", "title": "Sampled minimum is admissible", "statement": "sample_brownbr_min and sample_layerbr_min return a minimum value within the requested bounds and strictly below both endpoints, and a time strictly inside (0, fin_t).", "quantifier": "all parameters and draws in (0,1)", "why_tests_cant": "For all draws.", "anchors": ["ctbayes/sdelib/hitting.py:sample_brownbr_min", "ctbayes/sdelib/hitting.py:sample_layerbr_min"]}
{"id": "C34", "title": "Brownian escape decision is exact", "statement": "The partial sums of the two-sided escape series alternate around and converge to a limit p in [0,1] for every admissible endpoint pair, and sample_brownbr_esc without an outer bound, when it returns, returns exactly (seed < p); it returns after finitely many terms whenever seed differs from p; it returns True whenever an endpoint is outside.", "quantifier": "all endpoints, durations, layer half-widths and seeds", "why_tests_cant": "An infinite series must be decided exactly from finitely many terms for all parameters.", "anchors": ["ctbayes/sdelib/hitting.py:sample_brownbr_esc", "ctbayes/sdelib/hitting.py:series_brownbr_esc"]}
{"id": "C35", "title": "Bessel escape decision is exact", "statement": "The same for sample_bessel3br_esc without an outer bound: for a start at 0 when 3*ue_x^2 > fin_t, and for a start above 0 always (in the branch without fast-forwarding), the partial sums alternate around the limit p and the result is exactly (seed < p).", "quantifier": "all endpoints, durations, layer widths and seeds", "why_tests_cant": "An infinite series must be decided exactly from finitely many terms.", "anchors": ["ctbayes/sdelib/hitting.py:sample_bessel3br_esc", "ctbayes/sdelib/hitting.py:series_bessel3br_esc"]}
{"id": "C36", "title": "Outer-bounded escape decision", "statement": "With an outer bound ub_x >= ue_x the decision of sample_brownbr_esc equals (seed < 1-(1-p)/(1-q)) where p, q are the limits for ue_x and ub_x. (Holds when the denominator partial sums stay below 1; violated in general because an odd partial sum of the denominator may exceed 1.)", "quantifier": "all parameters and seeds", "why_tests_cant": "The failing region is reached only for long durations.", "anchors": ["ctbayes/sdelib/hitting.py:series_brownbr_esc", "ctbayes/sdelib/hitting.py:sample_brownbr_esc"]}
{"id": "C37", "title": "Layers are nested and exhaust the bounds", "statement": "compute_edges(0) is the pair of endpoints, edges strictly widen with the layer index on both sides, stay strictly inside the bounds, and converge to the bounds (or diverge when infinite); each edge of layer i is passed with probability 1 / (i ** pow + 1) given that its bound is not. This holds for every positive exponent pow; for the others, which the code accepts, the layers after the first do not widen.", "quantifier": "all endpoints, durations, bounds, exponents and all layer indices", "why_tests_cant": "Quantifies over all layer indices and needs limits.", "anchors": ["ctbayes/sdelib/layers.py:compute_edges"]}
{"id": "C38", "title": "Anchor sectors", "statement": "sample_anchor returns sectors (lower edge of layer l, lower edge of layer l-1) and (upper edge of layer l-1, upper edge of layer l) for the sampled layer l >= 1, both of positive width, inside the bounds and enclosing both endpoints; the probability handed to the coin is in [0,1].", "quantifier": "all parameters and draws", "why_tests_cant": "For all draws and parameters.", "anchors": ["ctbayes/sdelib/layers.py:sample_anchor", "ctbayes/sdelib/layers.py:sample_layer"]}
{"id": "C39", "title": "Gaussian samplers have the advertised moments", "statement": "The values returned by sample_wiener and sample_brownbr are an affine function of the independent standard normal draws with mean vector and covariance matrix exactly those of moments_wiener and moments_brownbr; conditioning the Wiener moments on the end point with moments_gaussian_bridge gives the Brownian bridge moments.", "quantifier": "all increasing time grids of any length, endpoints and drifts", "why_tests_cant": "Exact identity for grids of any size.", "anchors": ["ctbayes/sdelib/paths.py:sample_wiener", "ctbayes/sdelib/paths.py:sample_brownbr", "ctbayes/sdelib/moments.py:moments_wiener", "ctbayes/sdelib/moments.py:moments_brownbr", "ctbayes/sdelib/moments.py:moments_gaussian_bridge"]}
{"id": "C40", "title": "Layered bridge values stay in the layer", "statement": "Whenever sample_layerbr returns, it returns one value per requested time, every value is at least inf_x and (if an upper bound is given) strictly below ub_sup_x; if a hitting level is given, it returns one flag per segment, at least one is set, and every segment whose flag is not set has both end values strictly below the hitting level.", "quantifier": "all inputs passing the assertions, all draws, all budgets", "why_tests_cant": "For all random draws and recursion outcomes.", "anchors": ["ctbayes/sdelib/paths.py:sample_layerbr", "ctbayes/sdelib/paths.py:propose_layerbr", "ctbayes/sdelib/paths.py:propose_layerbr_edge"]}
{"id": "C41", "title": "Reversal and reflection", "statement": "reverse and reflect are involutions, preserve length, reverse maps sorted times in [0, fin_t] to sorted times in [0, fin_t], and reflect keeps times; pivot_brownbr maps (0, 0) to the initial and (1, 0) to the final point.", "quantifier": "all arrays and horizons", "why_tests_cant": "Algebraic law over all arrays.", "anchors": ["ctbayes/sdelib/transforms.py:reverse", "ctbayes/sdelib/transforms.py:reflect", "ctbayes/sdelib/transforms.py:pivot_brownbr"]}
{"id": "C42", "title": "Interpolation never changes the past", "statement": "fill_wiener_outer returns sorted times that are exactly the union of the old and the new times, keeps the value at every old time, returns positions that point exactly at the requested times, and (when hit flags are given and at least one requested time is new) one flag per segment, such that a segment without the flag has both end values below the hitting level.", "quantifier": "all well-formed skeletons, all sorted duplicate-free requests and all draws", "why_tests_cant": "For all draws and insertion patterns.", "anchors": ["ctbayes/sdelib/interpolators.py:fill_wiener_outer", "ctbayes/sdelib/interpolators.py:fill_wiener_inner"]}
{"id": "C43", "title": "Hit information is never lost", "statement": "Interpolating a skeleton that carries hit flags returns a skeleton that carries hit flags. (Violated when every requested time is already present: the flags are replaced by None.)", "quantifier": "all skeletons and requests", "why_tests_cant": "Needs the exact coincidence of requested and stored times, which only happens in the dual-coin code path.", "anchors": ["ctbayes/sdelib/interpolators.py:fill_wiener_inner", "ctbayes/ea3lib/skeleton.py:interpolate_skeleton", "ctbayes/ea3lib/seed.py:flip_dual_coin"]}
{"id": "C44", "title": "Flipping a skeleton", "statement": "flip_skeleton is an involution on skeletons starting at time 0, preserves end points and duration, swaps lower and upper bound, and reverses the hit flags.", "quantifier": "all skeletons of any length", "why_tests_cant": "Algebraic law.", "anchors": ["ctbayes/ea3lib/skeleton.py:flip_skeleton"]}
{"id": "C45", "title": "Interpolated paths stay consistent over any history", "statement": "For every finite sequence of interpolate_skeleton calls with sorted duplicate-free requests on a well-formed skeleton, every returned value is the value stored at the requested time, all earlier values remain, times stay sorted within [0, duration], values stay between tight and loose bound, and asking again for a time returns the same value.", "quantifier": "all histories of interpolation requests and all draws", "why_tests_cant": "Invariant over all histories and draws.", "anchors": ["ctbayes/ea3lib/skeleton.py:interpolate_skeleton", "ctbayes/ea3lib/skeleton.py:Skeleton.__call__", "ctbayes/ea3lib/seed.py:interpolate_seed"]}
{"id": "C46", "title": "Raw skeletons respect the state-space bounds", "statement": "The skeleton returned by sample_raw_skeleton has both its tight and loose bound within bounds_x. (Holds for unbounded or symmetric bounds; violated for one-sided bounds as used by CIR because the flip reflects the loose bound through the midpoint.)", "quantifier": "all parameters and draws", "why_tests_cant": "For all draws; the violation needs a high layer.", "anchors": ["ctbayes/ea3lib/skeleton.py:sample_raw_skeleton", "ctbayes/ea3lib/seed.py:sample_raw_seed"]}
{"id": "C47", "title": "Path bounds enclose the path", "statement": "For every seed value between tight and loose bound and every normalised time in the interval, the de-normalised value lies between the lower and upper bounds that bound_disc_path feeds to eval_bounds_disc, for the Ito and the switching normal operators.", "quantifier": "all seeds, times, endpoints, parameters and grids", "why_tests_cant": "A continuum of path points.", "anchors": ["ctbayes/ea3lib/seed.py:bound_disc_path", "ctbayes/ito/static.py:assemble_model", "ctbayes/switching/static.py:assemble_model"]}
{"id": "C48", "title": "Normalisation is a bijection", "statement": "denorm_rsde and norm_rsde are mutually inverse for positive durations and volatilities; the pinned end points are mapped to 0; the z-bounds computed by sample_raw_seed guarantee that any seed path inside them is de-normalised inside bounds_x.", "quantifier": "all parameters, times and values", "why_tests_cant": "Algebraic law over reals.", "anchors": ["ctbayes/ito/static.py:assemble_model", "ctbayes/switching/static.py:assemble_model", "ctbayes/ea3lib/seed.py:sample_raw_seed"]}
{"id": "C49", "title": "OU discrepancy bounds are sound", "statement": "For the Ito OU and the switching OU, OU2 and OU3 models eval_bounds_disc returns (global infimum, lower, upper) with infimum <= lower <= phi(x) <= upper for every x in the given interval, and lower and upper are attained. The infimum is the smallest value of phi (violated by OU3, which returns twice that value).", "quantifier": "all parameters, intervals and points", "why_tests_cant": "Continuum of points and parameters.", "anchors": ["ctbayes/ito/models/ou.py:eval_bounds_disc", "ctbayes/switching/models/ou.py:eval_bounds_disc", "ctbayes/switching/models/ou2.py:eval_bounds_disc", "ctbayes/switching/models/ou3.py:eval_bounds_disc"]}
{"id": "C50", "title": "CIR discrepancy bounds are sound", "statement": "For the CIR model eval_bounds_disc returns lower <= phi(x) <= upper for every x in the given positive interval. (Holds when 4*thi0*thi1 >= thi2^2; violated below that, where phi has an interior minimum but the code only inspects the interval end points.)", "quantifier": "all parameters, intervals and points", "why_tests_cant": "Continuum; the failing parameter region is not sampled by the fixtures.", "anchors": ["ctbayes/ito/models/cir.py:eval_bounds_disc", "ctbayes/ito/models/cir.py:f_argmin_disc"]}
{"id": "C51", "title": "Dual coin intensity dominates", "statement": "For the Ito OU and switching OU, OU2, OU3 models, the intensity computed from eval_bounds_grad is at least the absolute difference of phi under the two parameter values at every seed value within the bounds and every time, so the assertion inside flip_dual_coin never fires.", "quantifier": "all positive parameter pairs, endpoints, durations, seed values and times", "why_tests_cant": "Continuum of parameters and points.", "anchors": ["ctbayes/ito/models/ou.py:eval_bounds_grad", "ctbayes/switching/models/ou.py:eval_bounds_grad", "ctbayes/switching/models/ou2.py:eval_bounds_grad", "ctbayes/switching/models/ou3.py:eval_bounds_grad", "ctbayes/ito/mcmc.py:flip_param_coin", "ctbayes/switching/mcmc.py:flip_param_coin", "ctbayes/ea3lib/seed.py:flip_dual_coin"]}
{"id": "C52", "title": "CIR posterior sampling is usable", "statement": "flip_param_coin of the CIR model succeeds for distinct parameter values. (Violated: eval_bounds_grad is identically zero, so the Poisson intensity is 0 and the assertion in sample_batch_ppp fails.)", "quantifier": "all parameters and seeds", "why_tests_cant": "There is no CIR posterior test.", "anchors": ["ctbayes/ito/models/cir.py:eval_bounds_grad", "ctbayes/ito/mcmc.py:flip_param_coin", "ctbayes/mjplib/skeleton.py:sample_batch_ppp"]}
{"id": "C53", "title": "Model ingredients are coherent", "statement": "For the Ito OU and CIR and the switching OU and OU2 models, sx_eval_drift is an antiderivative of eval_drift, dx_eval_drift is its derivative, dv_reduce is the derivative of reduce, dereduce inverts reduce, and reduce is the Lamperti transform of the original diffusion.", "quantifier": "all parameters and states in the state space", "why_tests_cant": "Differential identities on a continuum.", "anchors": ["ctbayes/ito/models/ou.py:*", "ctbayes/ito/models/cir.py:*", "ctbayes/switching/models/ou.py:*", "ctbayes/switching/models/ou2.py:*"]}
{"id": "C54", "title": "OU3 model ingredients are coherent", "statement": "The same for switching OU3. (Violated: dx_eval_drift and sx_eval_drift carry an extra factor 1/2, and on arrays of regimes the product runs over all regimes.)", "quantifier": "all parameters and states", "why_tests_cant": "No test imports ou3.", "anchors": ["ctbayes/switching/models/ou3.py:eval_drift", "ctbayes/switching/models/ou3.py:sx_eval_drift", "ctbayes/switching/models/ou3.py:dx_eval_drift"]}
{"id": "C55", "title": "Poisson coin decision", "statement": "flip_poisson_coin accepts iff no drawn Poisson point lies below the graph of phi minus its lower bound at the interpolated path; conditional on the path its rejection test compares quantities in [0, intensity], an infinite intensity always rejects, and the returned seed agrees with the input seed at all previously stored times.", "quantifier": "all seeds, batches and draws", "why_tests_cant": "For all draws and any number of batches.", "anchors": ["ctbayes/ea3lib/seed.py:flip_poisson_coin", "ctbayes/ea3lib/skeleton.py:flip_poisson_coin"]}
{"id": "C56", "title": "Splitting and pasting hidden states is lossless", "statement": "paste_hidden(split_hidden(z, h, new_t)) returns exactly z and h for every anchorage starting at time 0 with one seed per interval and any array new_t; the pieces are non-empty, start at time 0, and consecutive pieces share their boundary state and value.", "quantifier": "all anchorages of any length and all split arrays", "why_tests_cant": "Quantifies over lists and subsets of split points.", "anchors": ["ctbayes/switching/mcmc.py:split_hidden", "ctbayes/switching/mcmc.py:paste_hidden"]}
{"id": "C57", "title": "Augmentation keeps the regime path and the data", "statement": "For every regime path with the observation horizon, sample_aug returns an anchorage whose times contain every observation time, whose values at observation times are the observed values (for models with the identity reduction), whose pruning is exactly the given regime path, and one seed per interval.", "quantifier": "all regime paths (not jumping exactly at interior observation times), observation grids and draws", "why_tests_cant": "For all draws and paths.", "anchors": ["ctbayes/switching/static.py:assemble_model", "ctbayes/switching/types.py:prune_anchorage"]}
{"id": "C58", "title": "Every posterior draw contains the data", "statement": "After any number of hidden-state updates with any pattern of accepted sections and any choice of conditioning times, the anchorage still contains all observation times with the observed values, has one seed per interval, sorted times from 0 to the horizon, equal-state consecutive entries exactly at observation times and consistent states at section boundaries.", "quantifier": "all histories of updates, all acceptance patterns and all draws", "why_tests_cant": "Invariant over all histories.", "anchors": ["ctbayes/switching/mcmc.py:update_hidden", "ctbayes/switching/mcmc.py:split_hidden", "ctbayes/switching/mcmc.py:paste_hidden"]}
{"id": "C59", "title": "Regime parameter updates are local", "statement": "update_params changes the parameters of a regime only if that regime's section accepted, takes every seed of an interval from the section of the regime active on it, flips no coin on intervals of other regimes, and the result does not depend on the order in which the sections run.", "quantifier": "all regimes, acceptance patterns and schedules", "why_tests_cant": "All schedules of parallel sections.", "anchors": ["ctbayes/switching/mcmc.py:update_params", "ctbayes/switching/mcmc.py:update_params_section", "ctbayes/switching/mcmc.py:flip_param_coins"]}
{"id": "C60", "title": "Restricted likelihood decomposes", "statement": "The first component of the switching eval_biased_log_lik restricted to each regime sums over all regimes to the unrestricted value; the second component is the log density of the observed increments given the regime path less the driftless part of the selected intervals, so that both together are the drift terms of all intervals plus the density of the observations.", "quantifier": "all anchorages and regime counts", "why_tests_cant": "Exact identity over unbounded anchorages.", "anchors": ["ctbayes/switching/static.py:assemble_model"]}
{"id": "C61", "title": "MCEM particle schedule and thinning", "statement": "With learning rate r >= 1 the number of particles is strictly increasing over iterations and starts at 1; update_particles returns exactly n_particles particles for every thinning >= 1; the loop stops exactly at the first iteration whose objective differs from the previous one by less than ftol.", "quantifier": "all iterations, learning rates, thinning factors and objective sequences", "why_tests_cant": "Unbounded iterations and real exponents.", "anchors": ["ctbayes/ito/mcem.py:maximize_posterior", "ctbayes/ito/mcem.py:update_particles", "ctbayes/switching/mcem.py:maximize_posterior", "ctbayes/switching/mcem.py:update_particles"]}
{"id": "C62", "title": "MCEM iterates from the current estimate", "statement": "Every EM iteration starts from the parameter estimate returned by the previous one. (Holds for switching; violated for ito.maximize_posterior, which restarts from init_thi each time.)", "quantifier": "all models and iteration counts", "why_tests_cant": "A test that only looks at convergence cannot see the restart.", "anchors": ["ctbayes/ito/mcem.py:maximize_posterior", "ctbayes/switching/mcem.py:maximize_posterior"]}
{"id": "C63", "title": "Buffered bounds", "statement": "buffer_bounds returns an interval inside the original bounds, non-empty when the original is, with a margin of min(width/2, buffer) on each side, and leaves infinite bounds infinite; clipping to it in est_se is idempotent and lands inside.", "quantifier": "all bound vectors including infinities", "why_tests_cant": "All combinations of finite/infinite bounds.", "anchors": ["ctbayes/ito/mcem.py:buffer_bounds", "ctbayes/switching/mcem.py:buffer_bounds", "ctbayes/ito/mcem.py:est_se"]}
{"id": "C64", "title": "Initial generator of switching MCEM", "statement": "The initial generator built by maximize_posterior has rows summing to 0 for any hyper-prior; the generator of every EM update has rows summing to 0. (The first holds for the constant hyper-prior built by the package but is violated for asymmetric hyper-priors, because the diagonal is filled from column sums.)", "quantifier": "all hyper-priors and particle sets", "why_tests_cant": "All hyper-priors.", "anchors": ["ctbayes/switching/mcem.py:maximize_posterior", "ctbayes/switching/mcem.py:update_generator", "ctbayes/switching/static.py:construct_gen_hyperprior"]}
{"id": "C65", "title": "Pre-coin uses the full weight", "statement": "The parameter update with the pre-coin leaves the posterior invariant, i.e. acceptance satisfies detailed balance with respect to prior times biased likelihood times coin probability. (Holds for switching; violated for ito, whose pre-coin omits the likelihood.)", "quantifier": "all parameter pairs and coin probabilities", "why_tests_cant": "Exact identity between probabilities.", "anchors": ["ctbayes/ito/mcmc.py:flip_param_precoin", "ctbayes/ito/mcmc.py:update_params", "ctbayes/switching/mcmc.py:flip_param_precoin"]}
{"id": "C66", "title": "Results are a function of the given generator", "statement": "Two runs of a parameter proposal with the same Generator state give the same proposal. (Violated: the random-walk proposals draw from numpy's global state, ignoring the generator passed in.)", "quantifier": "all generator states", "why_tests_cant": "A single seeded run cannot distinguish the two sources.", "anchors": ["ctbayes/misc/adapt.py:MyopicMvRwSampler.propose", "ctbayes/misc/adapt.py:MyopicRwSampler.propose"]}
{"id": "C67", "title": "Seeded minimum map", "statement": "gen_seeded_brownbr_min returns a minimum strictly below both end points and a time strictly inside (0, fin_t) for every admissible seed, and the same seed always gives the same result; the Wald transform inside returns one of the two roots of its defining quadratic.", "quantifier": "all seeds, endpoints and durations", "why_tests_cant": "Continuum of seeds.", "anchors": ["ctbayes/sdelib/transforms.py:gen_seeded_brownbr_min"]}
{"id": "C68", "title": "Regime sampler on short series", "statement": "update_hidden works for any series with at least two observations. (Violated for two or three observations: the conditioning-time draw is asked for a negative size and raises ValueError.)", "quantifier": "all observation grids", "why_tests_cant": "Fixtures use longer series.", "anchors": ["ctbayes/switching/mcmc.py:update_hidden", "ctbayes/misc/adapt.py:MyopicMjpSampler.propose"]}
{"id": "C69", "title": "Number of uniformised transitions is drawn exactly", "statement": "Given the final state, the number of transitions drawn inside sample_bridge is the inverse, at the uniform draw, of the distribution function F(n) proportional to the sum over j <= n of exp(-lam) lam^j/j! P^j[i,f] with P = I + Q/q and lam = q*fin_t; this F increases to 1, i.e. the normalising constant taken from expm(fin_t*Q)[i,f] is the right one.", "quantifier": "all generators, horizons, endpoints and uniform draws", "why_tests_cant": "An identity between an infinite series and a matrix exponential, for all inputs.", "anchors": ["ctbayes/mjplib/skeleton.py:sample_bridge"]}
{"id": "C70", "title": "Forward simulation runs competing exponential clocks", "statement": "In the path returned by sample_forwards every jump goes to the state whose clock rings first among fresh exponential draws with rates gen[x, j], one per other state j, at exactly the time that clock shows, and the path ends only when every clock of the last sojourn rings at or after the horizon.", "quantifier": "all generators with positive rates, all draws", "why_tests_cant": "Holds per jump for paths of any length; structural tests do not see which rate belongs to which state.", "anchors": ["ctbayes/mjplib/skeleton.py:sample_forwards"]}
{"id": "C71", "title": "Sampled skeletons keep the requested end points", "statement": "A skeleton returned by skeleton.sample_skeleton is well formed (increasing times from 0 to fin_t, one value each between tight and loose bound), starts at init_x and ends at a value produced by the endpoint sampler.", "quantifier": "all end point samplers, bounds, drift functionals and draws", "why_tests_cant": "The returned skeleton is the result of an unbounded number of rejected proposals and interpolations.", "anchors": ["ctbayes/ea3lib/skeleton.py:sample_skeleton"]}
{"id": "C72", "title": "Dual coin decision", "statement": "flip_dual_coin evaluates both discrepancies on the same seed values, rejects iff a Poisson point lies below the one-sided difference, returns a seed agreeing with its input at all stored times, and never fails its assertion when the intensity dominates the difference over the bounds of the seed.", "quantifier": "all seeds, operators, intensities, directions, batches and draws", "why_tests_cant": "The coin is a random loop over Poisson batches; its exactness needs both parameters to be compared on one and the same path for every draw.", "anchors": ["ctbayes/ea3lib/seed.py:flip_dual_coin", "ctbayes/ea3lib/seed.py:interpolate_seed"]}
{"id": "C73", "title": "The M-step for the generator is the maximiser", "statement": "update_generator of switching MCEM returns the unique maximiser of the average log posterior of the generator over the particles, among all generators with positive rates, and reports its value. (Needs prior shapes above one; with the default shape one, transitions that no particle makes get rate zero.)", "quantifier": "all particle sets, hyper-priors and dimensions", "why_tests_cant": "Optimality over a continuum of generators.", "anchors": ["ctbayes/switching/mcem.py:update_generator"]}
{"id": "C74", "title": "Particles of switching MCEM belong to the data and to the sampler", "statement": "In every iteration every particle carries the observations and a well-formed jump path, and the particle from which the next iteration starts is the state of the regime sampler. (The second part holds without thinning and is violated with the default thinning of 2: the last particle kept is older than the sampler.)", "quantifier": "all models, data, iterations and random draws", "why_tests_cant": "The state is hidden in an object that the update changes.", "anchors": ["ctbayes/switching/mcem.py:maximize_posterior", "ctbayes/switching/mcem.py:update_particles"]}
{"id": "C75", "title": "The Monte-Carlo objective is a fixed function", "statement": "The function returned by update_objective draws no random numbers when evaluated, at any parameter, and returns one finite value per particle: the seeds already contain all support times.", "quantifier": "all parameters, seeds, support numbers and random draws", "why_tests_cant": "Determinism at every parameter of a continuum.", "anchors": ["ctbayes/ito/mcem.py:update_objective", "ctbayes/switching/mcem.py:update_objective", "ctbayes/ito/mcem.py:est_log_aug_lik", "ctbayes/switching/mcem.py:est_log_aug_lik"]}
{"id": "C76", "title": "Regime objectives decompose", "statement": "The objective restricted to one regime depends on that regime only, and the restricted objectives add up to the joint one (without the prior), so that optimising regime by regime optimises the joint objective.", "quantifier": "all parameters, particles and regime counts", "why_tests_cant": "Exact identity over unbounded anchorages.", "anchors": ["ctbayes/switching/mcem.py:est_log_aug_lik", "ctbayes/switching/mcem.py:update_param"]}
{"id": "C77", "title": "Updates decide by Barker's rule with the stated weights", "statement": "Given the proposal and the next uniform u, a parameter section of the switching sampler rejects without any change exactly if the pre-coin is on and u is at least w'/(w'+w), where w and w' are the exponentials of restricted log-likelihood plus prior plus proposal density; otherwise it runs the two-coin algorithm on the seeds, from zero weights with the pre-coin and from log w' and log w without. The same for hidden-state sections with the weight of the hidden state, for bridges of an Ito diffusion, and for Ito parameters, where the pre-coin uses prior and proposal only and the likelihood does not enter the decision.", "quantifier": "all models, states, proposals and draws", "why_tests_cant": "The decision is a function of a continuum of weights and draws.", "anchors": ["ctbayes/switching/mcmc.py:update_params_section", "ctbayes/switching/mcmc.py:update_hidden_section", "ctbayes/switching/mcmc.py:flip_param_precoin", "ctbayes/switching/mcmc.py:flip_hidden_precoin", "ctbayes/ito/mcmc.py:update_params", "ctbayes/ito/mcmc.py:flip_param_precoin", "ctbayes/ito/mcmc.py:update_sde_bridge"]}
{"id": "C78", "title": "Weights do not depend on the coin flips", "statement": "eval_hidden_weight and eval_sde_weight make no draws, equal the sum over the intervals of minus duration times the lower bound of the discrepancy on the band of the seed (plus the log-likelihood for hidden states), and give the same value for any refinement of the seeds, so the order of weighing and flipping does not matter.", "quantifier": "all partitions, refinements, bounds and draws", "why_tests_cant": "Quantifies over all refinements of all seeds.", "anchors": ["ctbayes/switching/mcmc.py:eval_hidden_weight", "ctbayes/ito/mcmc.py:eval_sde_weight", "ctbayes/ea3lib/seed.py:integrate_disc_bound"]}
{"id": "C79", "title": "Every posterior draw of an Ito diffusion is well formed", "statement": "After any number of iterations of ito sample_posterior, with any acceptance pattern, the parameters are admissible and keep their number, and there is one standard seed (a bridge from 0 to 0 on [0, 1] with consistent bounds and flags) per observation interval.", "quantifier": "all numbers of iterations, proposals, acceptance patterns and draws without ties", "why_tests_cant": "Invariant over unbounded histories.", "anchors": ["ctbayes/ito/mcmc.py:sample_posterior", "ctbayes/ito/mcmc.py:update_joint", "ctbayes/ito/mcmc.py:update_params", "ctbayes/ito/mcmc.py:update_sde", "ctbayes/ito/static.py:assemble_model"]}
{"id": "C80", "title": "Ito updates are local", "statement": "update_params changes at most the one coordinate it drew, to the proposed value and only on acceptance, and seeds only gain points; update_sde_bridge returns the old or the proposed seed, possibly with more points, and depends on the data only through the duration and the two values of its interval.", "quantifier": "all data, parameters, seeds and draws", "why_tests_cant": "Independence of the rest of the data for every data set.", "anchors": ["ctbayes/ito/mcmc.py:update_params", "ctbayes/ito/mcmc.py:update_sde_bridge", "ctbayes/ito/mcmc.py:flip_param_coins", "ctbayes/ito/mcmc.py:flip_sde_coins"]}
{"id": "C81", "title": "The biased likelihood of an Ito diffusion is a sum over intervals", "statement": "eval_biased_log_lik is the sum over the intervals of log |dv_reduce| plus the log density of the increment of the reduced path under a Brownian motion plus the increment of the antiderivative of the drift, and equals the sum of its values on the single intervals shifted to start at 0 (as used for sub-models).", "quantifier": "all data sets and parameters", "why_tests_cant": "Exact identity over unbounded data.", "anchors": ["ctbayes/ito/static.py:assemble_model", "ctbayes/ito/mcmc.py:update_sde_bridge"]}
{"id": "C82", "title": "The end point density is log-concave", "statement": "The pair (f, df) that sample_conv_endpt passes to the adaptive rejection sampler is a function and its derivative, and f is strictly concave on the state space, as that sampler requires. (Holds for the OU model with -beta < 1/T and for the CIR model with sigma^2 <= 4 kappa mu; violated by the CIR model for all other parameters.)", "quantifier": "all parameters, durations and starting points", "why_tests_cant": "Concavity over a continuum.", "anchors": ["ctbayes/ito/static.py:assemble_model", "ctbayes/ito/models/ou.py:eval_drift", "ctbayes/ito/models/cir.py:eval_drift"]}
{"id": "C83", "title": "Simulated paths start and end where they should", "statement": "sample_sde returns one value per requested time, requests outside [0, T] do not return, the value at time 0 is the given initial value and the value at time T the given final value (or the image of the sampled end point), in the coordinate of the data.", "quantifier": "all models with an invertible reduction, end points, time grids and draws", "why_tests_cant": "All grids and all draws.", "anchors": ["ctbayes/ito/static.py:assemble_model"]}
{"id": "C84", "title": "Skeleton equality is equality of paths", "statement": "skel1 == skel2 holds exactly when times, states and horizon agree; for skeletons in canonical form (as returned by sample_forwards, paste_partition and partition_skeleton) it holds exactly when the horizons agree and the two paths are in the same state at every time.", "quantifier": "all pairs of skeletons, in exact arithmetic", "why_tests_cant": "Agreement at a continuum of times.", "anchors": ["ctbayes/mjplib/skeleton.py:Skeleton.__eq__", "ctbayes/mjplib/skeleton.py:Skeleton.__call__"]}
{"id": "C85", "title": "The samplers report the states they step through", "statement": "The generator sample_posterior of both samplers starts from a fresh augmentation at the initial parameters, and each reported state follows from the one reported before: Ito parameters from update_params at the previous state and seeds from update_sde at the new parameters; switching generator matrix from update_generator at the previous hidden state, parameters from update_params at the previous state, and hidden state, seeds and regime sampler from update_hidden at the new generator and parameters.", "quantifier": "all models, observations, controls, inputs of the iterations, draws, and any number of iterations", "why_tests_cant": "A statement about every iteration of an unbounded random run.", "anchors": ["ctbayes/ito/mcmc.py:sample_posterior", "ctbayes/ito/mcmc.py:update_joint", "ctbayes/switching/mcmc.py:sample_posterior", "ctbayes/switching/mcmc.py:update_joint"]}
{"id": "C86", "title": "The exact samplers can succeed", "statement": "For every admissible input there are draws without ties for which the computation returns rather than raising an exception or looping: sample_raw_skeleton, sample_skeleton and sample_bridge of ea3lib return a path within the bounds, and sample_posterior of the Ito sampler (unbounded state space) can follow every list of moves: for each iteration any coordinate, any proposed value, accepted or not. For the Ornstein-Uhlenbeck model this needs only that no two successive observations are both zero.", "quantifier": "all durations, end points, bounds, discrepancy functions with non-degenerate bounds, series of observations, lists of moves of any length", "why_tests_cant": "Existence of a successful random run for every input; a test that happens to pass shows one.", "anchors": ["ctbayes/ea3lib/skeleton.py:sample_raw_skeleton", "ctbayes/ea3lib/skeleton.py:sample_skeleton", "ctbayes/ea3lib/seed.py:sample_bridge", "ctbayes/ito/mcmc.py:sample_posterior", "ctbayes/ito/models/ou.py:eval_bounds_disc"]}
{"id": "C87", "title": "The jump process samplers reach every path of positive density, and only those", "statement": "sample_forwards (from a given state or the stationary law) can return exactly every path over [0, fin_t) whose jumps go to other states at positive rates, and every path it returns is of this kind. sample_bridge and sample_backwards come within every eps of each such path with the given end state (same states, jump times within eps), and return only such paths. mutate_partition can come close to every sequence of pieces with the old states at the breaks. sample_param can draw every generator with positive rates.", "quantifier": "all generators, durations, initial states, numbers of jumps, jump times, hyper-parameters, eps > 0", "why_tests_cant": "Whether a sampler misses part of its support cannot be seen in finitely many draws.", "anchors": ["ctbayes/mjplib/skeleton.py:sample_forwards", "ctbayes/mjplib/skeleton.py:sample_bridge", "ctbayes/mjplib/skeleton.py:sample_backwards", "ctbayes/mjplib/skeleton.py:mutate_partition", "ctbayes/mjplib/inference.py:sample_param"]}
{"id": "C88", "title": "Laws of the Poisson coins and of the point process", "statement": "Integrating out the draws the code makes, in the order it makes them and against the densities of the distributions it asks for: sample_ppp is a Poisson point process (generating functional, in any dimension), the probability that none of its points falls below a curve is exp(-integral), the exponential of est_poisson_coin has mean exp(-integral of the centred discrepancy) on any given path, and a coin whose points come in one batch has the success probability of independent uniform points. REFUTED for more than one batch: with three points handed out as two and one the coin succeeds with probability 3/20 where independent points give 1/8.", "quantifier": "all intensities, boxes, curves, discrepancies, bounds and numbers of points", "why_tests_cant": "a probability is an integral over all draws; tests sample it", "anchors": ["ctbayes/mjplib/skeleton.py:sample_ppp", "ctbayes/mjplib/skeleton.py:sample_batch_ppp", "ctbayes/ea3lib/skeleton.py:flip_poisson_coin", "ctbayes/ea3lib/skeleton.py:est_poisson_coin"]}
{"id": "C89", "title": "Finite-dimensional laws of simulated jump processes", "statement": "Integrating out the draws the code makes: a simulated path is in given states at any finite list of times with the probability of the Markov process with that generator. For sample_bridge this is the product of transition probabilities exp(t gen) divided by the probability of the end state; for sample_backwards the same averaged over the starting state; for sample_forwards the product of transition probabilities from the given state, or from the stationary law if no state is given, which is then the law of the state at every time. Holds in the limit of the loop bound of the model, and for every bound the probability exists.", "quantifier": "all generators (with a positive rate, for bridges), horizons, end states and lists of times and states", "why_tests_cant": "a probability over paths is an integral over all draws and all numbers of jumps", "anchors": ["ctbayes/mjplib/skeleton.py:sample_bridge", "ctbayes/mjplib/skeleton.py:sample_backwards", "ctbayes/mjplib/skeleton.py:sample_forwards"]}
{"id": "C90", "title": "Redrawing a regime path between conditioning times", "statement": "mutate_partition redraws the pieces of a path independently of one another: a piece between two conditioning times has the law of the Markov process pinned to the states at its two ends, the last piece the law of the process started from the state at the last conditioning time, and without conditioning times the whole path is a fresh stationary one. The first piece is drawn as if the process started from the uniform law on its states; it has the law of the stationary process given its end state exactly when the stationary law is uniform, so that the proposal does not preserve the law of the stationary process in general.", "quantifier": "all generators with positive rates, partitions, states at the cuts and lists of times and states within each piece", "why_tests_cant": "equality of two laws over paths; the doctest compares long-run averages, which do not depend on the law of the first piece", "anchors": ["ctbayes/mjplib/skeleton.py:mutate_partition", "ctbayes/mjplib/skeleton.py:sample_backwards", "ctbayes/mjplib/skeleton.py:sample_forwards", "ctbayes/mjplib/skeleton.py:sample_bridge", "ctbayes/misc/adapt.py:MyopicMjpSampler.propose"]}
{"id": "C91", "title": "Log priors of the diffusion parameters", "statement": "eval_log_prior is minus infinity when a parameter is negative and a finite number when all are positive. For the Ornstein-Uhlenbeck models it makes the logarithm of the mean reversion and of the squared volatility independent centred normals with the two scales as standard deviations, independently over regimes; for the Cox-Ingersoll-Ross model it is the density of two exponential parameters and of a volatility whose inverse square is exponential. It is never NaN (false: it is NaN at zero parameters).", "quantifier": "all parameters and positive scales", "why_tests_cant": "an identity between densities over a continuum of parameters, including the boundary", "anchors": ["ctbayes/ito/models/ou.py:eval_log_prior", "ctbayes/ito/models/cir.py:eval_log_prior", "ctbayes/switching/models/ou.py:eval_log_prior", "ctbayes/switching/models/ou2.py:eval_log_prior", "ctbayes/switching/models/ou3.py:eval_log_prior"]}
{"id": "C92", "title": "The Euler scheme", "statement": "euler_simulate returns the requested number of trajectories; each starts at the given point and follows the Euler-Maruyama recursion for the given drift and volatility, with one fresh standard normal per step and trajectory, for as many steps as fit into the horizon; the returned times are the multiples of the step before the horizon. There is one time per value (true exactly when the horizon is not a multiple of the step; false with the default arguments).", "quantifier": "all horizons, steps, numbers of trajectories, drift and volatility functions and random draws", "why_tests_cant": "ranges over all coefficient functions and noise", "anchors": ["ctbayes/misc/testing.py:euler_simulate"]}
{"id": "C93", "title": "Gradients of the Ornstein-Uhlenbeck discrepancy", "statement": "eval_grad returns the derivatives of the discrepancy at a denormalised point in the two parameters and is bounded by eval_bounds_grad. The derivative in the volatility is right; the one in the mean reversion is 1/2 too small at every point, and violates the bound.", "quantifier": "all parameters, end points, times and normalised values", "why_tests_cant": "a derivative at every point of a continuum", "anchors": ["ctbayes/ito/models/ou.py:eval_grad", "ctbayes/ito/models/ou.py:eval_bounds_grad"]}
{"id": "C94", "title": "Laws of the escape decisions", "statement": "Drawing its own uniform, an escape decision answers yes with exactly the probability that the bridge leaves the interval, and with an outer bound with the probability that it leaves the inner interval given that it stays in the outer one. Given the values it has drawn, an attempt of propose_layerbr_edge is accepted with given flags with probability the product over the segments of p - q (flagged) or 1 - p (not flagged), where p and q are the probabilities of reaching the inner and the outer level.", "quantifier": "All durations, end points and levels, any number of segments and any pattern of flags, for the outer-bounded series under the condition of C36.", "why_tests_cant": "The decisions compare a uniform with an infinite alternating series; a law over a continuum of draws and the limit of the series are out of reach of sampling.", "anchors": ["ctbayes/sdelib/hitting.py:sample_brownbr_esc", "ctbayes/sdelib/hitting.py:sample_bessel3br_esc", "ctbayes/sdelib/paths.py:propose_layerbr_edge"]}
{"id": "C95", "title": "Laws of the Brownian samplers", "statement": "The joint moment generating function of everything sample_wiener returns is that of independent Brownian motions with the given starting points and drifts; that of sample_brownbr is the one of a Brownian bridge between the two given points. moments_brownbr returns the means and covariances of what sample_brownbr returns.", "quantifier": "all time grids, starting points, drifts, horizons, end points and all linear combinations of the returned values", "why_tests_cant": "the law of a vector of any length is an integral over all normal draws", "anchors": ["ctbayes/sdelib/paths.py:sample_wiener", "ctbayes/sdelib/paths.py:sample_brownbr", "ctbayes/sdelib/moments.py:moments_brownbr"]}
{"id": "C96", "title": "Law of the minimum of a Brownian bridge and of its time", "statement": "sample_brownbr_min returns a minimum with distribution function cdf_brownbr_min, which without bounds is exp(-2(a-x)(b-x)/t); given the minimum m, the time has the density proportional to the product of the densities of the first passage from a to m by time u and of the first passage from b to m by time t-u. Between equal end points the time is t/2 on average.", "quantifier": "all durations, end points, bounds on the minimum and test functions bounded and continuous in the time", "why_tests_cant": "the time is a mixture of two transformed inverse Gaussian draws; that this is the conditional density is an identity between integrals for every minimum", "anchors": ["ctbayes/sdelib/hitting.py:sample_brownbr_min", "ctbayes/sdelib/hitting.py:cdf_brownbr_min", "ctbayes/sdelib/hitting.py:ppf_brownbr_min"]}
{"id": "C97", "title": "Unbiased estimates of augmented likelihoods", "statement": "On given paths between the observations, exp of what est_aug_lik returns has mean the augmented likelihood: the biased likelihood times exp of minus the integrals of the discrepancy along the paths, for switching models over the segments of the selected regime. It holds where the discrepancy has finite bounds; with an infinite upper bound the estimate is -inf. The variance is finite: the second moment is the square of the mean times exp of the integral of (discrepancy - lower bound)^2 / (upper bound - lower bound).", "quantifier": "all models, parameters, data and paths, any number of segments", "why_tests_cant": "unbiasedness is an integral over a Poisson number of uniform points, for every path", "anchors": ["ctbayes/ito/mcem.py:est_aug_lik", "ctbayes/switching/mcem.py:est_aug_lik", "ctbayes/ea3lib/seed.py:est_poisson_coin"]}
{"id": "C98", "title": "Standard errors are computed inside the bounds", "statement": "est_se evaluates the objective inside the buffered bounds only, and at the point asked for when that is inside; it returns None at a bound; variances that it returns are positive; the missing information that it subtracts is symmetric and positive semidefinite. With exact differentiation the result is the inverse of the observed information by Louis identity: the average of minus the second derivatives of the log-likelihoods of the particles less the sample covariance of their scores. For a switching model the errors of regime k come from the objective of regime k as a function of row k of the parameters, the other rows staying as they are. Differences with steps that leave the bounds do not give the slope.", "quantifier": "all objectives, bounds, differentiation rules, numbers of particles and parameters", "why_tests_cant": "numerical differentiation may ask for any points, and its correctness is a statement about all of them", "anchors": ["ctbayes/ito/mcem.py:est_se", "ctbayes/switching/mcem.py:est_se"]}
{"id": "C99", "title": "Brownian interpolation of a vector", "statement": "fill_wiener_vector inserts new times in order, keeps the known values, returns the positions of the new ones, and gives them the joint law of a Brownian bridge between their neighbours. It does so when all new times lie strictly inside one interval of the grid, and returns for no others.", "quantifier": "all grids, values and new times", "why_tests_cant": "a joint law of a vector of any length; failure for every other arrangement", "anchors": ["ctbayes/sdelib/interpolators.py:fill_wiener_vector"]}
{"id": "C100", "title": "Laws of the Bessel samplers", "statement": "At every time of the grid the square of the value drawn by sample_bessel has the law of the squared length of a Gaussian vector with independent coordinates of variance t, one of them with mean init + mu t. The bridge of sample_besselbr from 0 to x has mean x t/T and variance t (T - t)/T in the same sense. At all times of the grid together the values are jointly distributed as the lengths of a vector of independent Brownian motions, or Brownian bridges.", "quantifier": "all grids, dimensions, starting points, drifts and end points", "why_tests_cant": "a continuous law at each of any number of times", "anchors": ["ctbayes/sdelib/paths.py:sample_bessel", "ctbayes/sdelib/paths.py:sample_besselbr"]}
{"id": "C101", "title": "Law of the layer of a Brownian bridge", "statement": "sample_layer returns a layer of index at most L with the conditional probability that the bridge stays inside the edges of layer L given that it stays inside the bounds on the path; between two finite bounds this is multiplied by the probability that one of the max_props attempts stays inside.", "quantifier": "all durations, end points, bounds on the path (finite or not), layers and numbers of attempts", "why_tests_cant": "a probability defined by an infinite series, found by one seed compared with the series of every layer", "anchors": ["ctbayes/sdelib/layers.py:sample_layer", "ctbayes/sdelib/layers.py:compute_edges", "ctbayes/sdelib/hitting.py:sample_brownbr_esc"]}
{"id": "C102", "title": "Law of adaptive rejection sampling", "statement": "For a strictly concave log density f that is differentiable between the bounds, every value yielded by sample has density proportional to exp(f). One iteration yields a value in a window with probability (mass of the window) / (mass of the hull). Once the hull is full the yielded values are independent, and a run of unlimited length yields them with probability one. While the hull is still being refined, the last of d+1 values has the target law given the earlier ones, whatever these are.", "quantifier": "all bounds (finite or not), all strictly concave differentiable f, all hulls whose supports are sorted, between the bounds and brace the mode, all caps on the number of points, all numbers of iterations and of values, all windows", "why_tests_cant": "The law of the values is a statement about integrals over all draws; the doctest compares one sample of a chi-squared law with a Kolmogorov-Smirnov test at level 0.01.", "anchors": ["ctbayes/misc/ars.py:sample", "ctbayes/misc/ars.py:sample_envelope", "ctbayes/misc/ars.py:eval_upper", "ctbayes/misc/ars.py:eval_lower", "ctbayes/misc/ars.py:gen_upper"]}
{"id": "C103", "title": "The anchor sector is a fair coin, exact for mirrored bounds only", "statement": "For all bounds sample_anchor chooses the lower sector with probability exactly one half, because the edges of a layer have the same conditional level on both sides. Together with the thinning of sample_edges this gives the conditional law of a path of the layer when the bounds are mirrored about the mid-point of the ends or infinite, and in the first layer; with one bound only it does not (refuted). sample_layerbr_min keeps a minimum with the probability that neither side of it reaches the upper bound; sample_edges keeps it with the two flags drawn from their conditional law, with probability one half if a flag is set.", "quantifier": "all durations, end points, bounds, layers, minima and their times", "why_tests_cant": "The anchor is a probability; the bias of the mixture in one layer cannot be told from noise by a unit test.", "anchors": ["ctbayes/sdelib/layers.py:sample_anchor", "ctbayes/sdelib/layers.py:sample_edges", "ctbayes/sdelib/hitting.py:sample_layerbr_min"]}
{"id": "C104", "title": "The Markov chains with their adaptive samplers", "statement": "With the state of the parameter samplers threaded through the chain, every run of the switching sampler is a run of the chain of C58 and C85 with admissible proposals. In every iterate each sampler stands at the parameters of its regime, which stay strictly inside one-sided bounds; its history is one proposal, one acceptance or rejection and one adaptation per iteration; the scale is changed on the schedule of C25 by at most (i+1)^-decay and the proposal covariance is positive definite throughout. The Ito sampler raises TypeError in its first iteration (refuted).", "quantifier": "all models, priors, observations, numbers of regimes, parameters and iterations, bounds, admissible starting values, and draws", "why_tests_cant": "The history of an adaptive chain is unbounded and depends on every earlier draw; tests look at a few iterations.", "anchors": ["ctbayes/switching/mcmc.py:sample_posterior", "ctbayes/switching/mcmc.py:update_joint", "ctbayes/switching/mcmc.py:update_params", "ctbayes/misc/adapt.py:MyopicMvRwSampler", "ctbayes/ito/mcmc.py:sample_posterior", "ctbayes/ito/mcmc.py:update_params", "ctbayes/misc/adapt.py:MyopicRwSampler"]}
{"id": "C105", "title": "The switching sampler can reach every parameter, generator and regime path", "statement": "Take any list of stops; a stop is the parameters of all regimes, a generator with positive rates and a regime path on the time interval of the data. If the parameters of each regime stay as they are or change so that the Poisson coins have a positive rate, then there are random numbers, and draws of the samplers, with which sample_posterior visits these stops one after the other, one for each iteration, and returns: no assertion, no exhausted budget and no rejected coin stands in the way. For ou3.py every list of stops with positive parameters can be visited; for ou.py and ou2.py every list in which a regime that changes changes its first parameter, and hence every list at every second iteration. So the chain is not confined to a part of the posterior, and the theorems about its iterates (C58, C85, C104) are about runs that exist.", "quantifier": "all lists of stops of any length, all numbers of regimes from two on, all observation grids with at least four times, all settings of the algorithm with positive budgets, all priors and likelihoods", "why_tests_cant": "that a sampler can go anywhere is a statement about the existence of runs among uncountably many; a test sees one run for each seed and cannot tell a slow chain from a reducible one", "anchors": ["ctbayes/switching/mcmc.py:sample_posterior", "ctbayes/switching/mcmc.py:update_joint", "ctbayes/switching/mcmc.py:update_params", "ctbayes/switching/mcmc.py:update_hidden", "ctbayes/misc/bfactories.py:sample_twocoin_joint", "ctbayes/misc/adapt.py:MyopicMvRwSampler"]}
{"id": "C106", "title": "Reversibility of the bridge update and the error of its batches", "statement": "On a path that is already known, the Poisson coin of a seed always answers, leaves the seed alone, and succeeds with a probability that exists and differs from exp(- integral of the discrepancy above its lower bound) by at most the probability that the Poisson number of points exceeds the batch size. The bridge update of the Ito chain returns one of the two seeds and is exactly reversible, for every portkey probability and every budget, with respect to weights that differ from the densities exp(- integral of the discrepancy) of the two paths by at most that error; without a portkey it accepts with the probability of Barker among the runs that end. The error tends to zero as the batch size grows.", "quantifier": "all discrepancies, bounds and paths whose discrepancy along the path is integrable, bounded and spends a continuously varying share of the time below each level from the lower bound on; all segments, seeds, batch sizes, portkey probabilities and budgets", "why_tests_cant": "The probabilities are integrals over an unbounded number of draws, and the bias of the batches is too small to be seen in samples of test size.", "anchors": ["ctbayes/ito/mcmc.py:update_sde_bridge", "ctbayes/ito/mcmc.py:flip_sde_coins", "ctbayes/ea3lib/seed.py:flip_poisson_coin", "ctbayes/misc/bfactories.py:sample_twocoin"]}
{"id": "C107", "title": "Reversibility of the hidden and parameter updates", "statement": "On paths that are already known, the dual coin, which compares two discrepancies along two paths of one seed, always answers, leaves the seed alone, and succeeds with probability exp(- integral of the positive part of the difference) up to the probability that the Poisson number of points exceeds one batch. The hidden section and the parameter section of the switching chain, and the parameter update of a sector of the Ito chain, return either the proposal or the old value. Their probabilities are exactly in detailed balance, for every portkey probability, every budget and with or without the pre-coin, with respect to weights that differ from the densities they should have, namely likelihood, prior and proposal density times exp(- sum of the integrals of the discrepancy over the pieces), by at most the error of the coins. Without a pre-coin and without a portkey they accept with the probability of Barker among the runs that end. The exception is the pre-coin of the Ito chain, whose weights do not contain the likelihood (C65). The bounds of the gradient that make the two directions use the same intensity are symmetric in all models of the package.", "quantifier": "all numbers of pieces and regimes, all discrepancies, bounds, likelihoods, priors and proposal densities, all known paths along which the discrepancies (or the positive part of their difference) are integrable, bounded by what the code computes and spend a continuously varying share of the time below each level from zero on; all batch sizes, portkey probabilities and budgets", "why_tests_cant": "Reversibility is an identity between probabilities of runs with an unbounded number of draws in two directions; a test sees frequencies of one direction, and a wrong factor in one coin leaves a chain that runs and mixes.", "anchors": ["ctbayes/switching/mcmc.py:update_hidden_section", "ctbayes/switching/mcmc.py:update_params_section", "ctbayes/switching/mcmc.py:flip_hidden_coins", "ctbayes/switching/mcmc.py:flip_param_coins", "ctbayes/ito/mcmc.py:update_params", "ctbayes/ito/mcmc.py:flip_param_coins", "ctbayes/ea3lib/seed.py:flip_dual_coin", "ctbayes/misc/bfactories.py:sample_twocoin_joint"]}
{"id": "C108", "title": "The Ornstein-Uhlenbeck models on continuous paths", "statement": "The three Ornstein-Uhlenbeck models of the switching sampler and the one of the Ito sampler meet what C106 and C107 ask of a model. Take continuous paths between the bounds of their layers. For the bridge update and the hidden section the discrepancy along a path is integrable and lies between the two levels the code computes with eval_bounds_disc. For the parameter updates the positive part of the difference of the two discrepancies along the two paths of one seed, in both directions, is integrable and at most the intensity the code computes with eval_bounds_grad, and the two integrals differ by the difference of the integrals of the discrepancies. So the estimates and the detailed balance of C106 and C107 hold for the models of the package with the integrals of their own discrepancies.", "quantifier": "all positive parameters, all numbers of regimes and pieces, all end points and lengths of the pieces, all continuous paths inside their layers, all proposals of a positive parameter; the share of time that the discrepancy, or the positive part of the difference, spends below a level is continuous in the level", "why_tests_cant": "A bound of a discrepancy along all continuous paths inside a layer is a statement about uncountably many functions; a test evaluates it at points.", "anchors": ["ctbayes/switching/models/ou.py:eval_bounds_grad", "ctbayes/switching/models/ou2.py:eval_bounds_grad", "ctbayes/switching/models/ou3.py:eval_bounds_grad", "ctbayes/ito/models/ou.py:eval_bounds_grad", "ctbayes/ito/models/ou.py:eval_bounds_disc", "ctbayes/switching/mcmc.py:flip_param_coin", "ctbayes/switching/mcmc.py:eval_hidden_weight", "ctbayes/ito/mcmc.py:update_sde_bridge"]}
{"id": "C109", "title": "Parts that are updated in parallel", "statement": "update_hidden, update_sde and update_params hand one job per section, bridge or regime to a pool, each with a generator of its own. On paths that are already known, let every part have two values, the present one and the proposed one. After the update each part has one of its two values, and the probability of every combination is the product of the probabilities of the parts. The joint update is in detailed balance with a target that is the product of the targets of the parts, for all pairs of combinations, and the error of that product is bounded by the errors of its factors. For the parameters of a switching chain the rows returned by the jobs are put together so that the result has row i of job i; the joint update is reversible if the log prior is a sum over the regimes, as for the models of the package (C91), and if volatility, discrepancy and restricted likelihood of a regime depend on its own row only (C60). With a prior that ties two regimes together it is not.", "quantifier": "all numbers of sections, bridges and regimes, all pairs of combinations of old and proposed values, all known paths as in C106 and C107, all priors that are sums over the regimes, all proposal densities, batch sizes, portkey probabilities and budgets, with and without precoin; one prior, for all other inputs, for the refutation", "why_tests_cant": "The combinations are exponentially many, and that accepting all regimes at once against their common old values is only right for independent priors cannot be seen in any single run.", "anchors": ["ctbayes/switching/mcmc.py:update_hidden", "ctbayes/switching/mcmc.py:update_params", "ctbayes/switching/mcmc.py:update_params_section", "ctbayes/switching/mcmc.py:update_hidden_section", "ctbayes/ito/mcmc.py:update_sde", "ctbayes/ito/mcmc.py:update_sde_bridge", "ctbayes/switching/models/ou.py:eval_log_prior"]}
{"id": "C110", "title": "Random walk proposals and the acceptance of the parameters", "statement": "MyopicMvRwSampler proposes by adding a normal increment in unconstrained coordinates, maps the result back inside the bounds, and returns the logarithms of the derivatives of that map at the proposed and at the present point, which update_params_section puts into its acceptance rate. These fit together: let the increment have any density that does not change when the increment changes sign. The density of the step in constrained coordinates, from the old row to the new one and back, is the density of the increment divided by the derivatives of the constraining map. Then the posterior of the old row times the density of the step times the probability of accepting it equals the same product for the reverse step, on paths that are already known and up to the error of the batches. In one coordinate that quotient is indeed the density: its integral over an interval of proposals is the probability that the increment lands there.", "quantifier": "all dimensions of the parameter row, all bounds (none, lower, upper, both), all states and proposals inside the bounds, all scales and covariances of the sampler, all even densities of increments, all priors and likelihoods, all batch sizes, portkey probabilities and budgets, with and without precoin; all intervals for the density", "why_tests_cant": "A missing or inverted derivative still gives a running sampler with plausible acceptance rates; it only has a different stationary law, which a test could detect on long chains of a known target at most.", "anchors": ["ctbayes/misc/adapt.py:MyopicMvRwSampler.propose", "ctbayes/misc/adapt.py:transform_to_const", "ctbayes/misc/adapt.py:transform_to_reals", "ctbayes/switching/mcmc.py:update_params_section"]}
{"id": "C111", "title": "Redrawing the regime path and the law of the regime process", "statement": "The proposal of the regime sampler cuts the current path at the conditioning times and redraws the pieces with mutate_partition. If the states at the cuts have the law of a regime process with some initial law, is what the redrawn pieces show at any finite list of times again distributed as that process? With at least one cut, exactly for the uniform initial law, whatever the generator, and then seeing first one thing and after redrawing another is as likely as the other way round; without a cut, exactly for the stationary law. So no initial law is kept by both unless the stationary law is uniform (the claim that redrawing keeps the law of the regime process is false in general). The transition probabilities computed by get_trans are those of a Markov process: they sum to one and form a semigroup.", "quantifier": "all generators with positive rates, initial laws, numbers and lengths of pieces, lists of times and states in every piece, and all partitions with the given states at the cuts", "why_tests_cant": "The law of a redrawn path is a statement about all paths at once; a test on long paths only checks occupation fractions, which the first piece hardly affects.", "anchors": ["ctbayes/mjplib/skeleton.py:mutate_partition", "ctbayes/mjplib/skeleton.py:sample_backwards", "ctbayes/mjplib/skeleton.py:sample_bridge", "ctbayes/mjplib/skeleton.py:sample_forwards", "ctbayes/mjplib/skeleton.py:get_trans", "ctbayes/misc/adapt.py:MyopicMjpSampler.propose"]}
{"id": "C112", "title": "The law of whole simulated paths, and eval_loglik as their density", "statement": "For every generator of two or more states, every starting state x, every list of states xs in which each differs from the one before and every list of bounds, the probability that sample_forwards goes through exactly x, xs with its k-th jump no later than the k-th bound is the integral, over increasing jump times before the horizon, of the product of exp (gen x x * s) for each stay of length s and gen x y for each jump; without a starting state the stationary probability of x is a further factor. eval_loglik of a path is the log of this density. (Violated: eval_loglik leaves out the stay in the final state after the last jump, so it exceeds the log density for every path whatever the generator; the posterior given the whole path is that of update with this time added to the rates of the final state.)", "quantifier": "all generators, dimensions, horizons, starting states, state sequences, jump time bounds and step budgets exceeding the number of jumps; all well-formed skeletons for eval_loglik", "why_tests_cant": "the law is an iterated integral over any number of jump times: a simulation estimates a few probabilities, and the missing factor shows only against the exact density", "anchors": ["ctbayes/mjplib/skeleton.py:sample_forwards", "ctbayes/mjplib/inference.py:eval_loglik", "ctbayes/mjplib/inference.py:update", "ctbayes/mjplib/inference.py:eval_logprior"]}
{"id": "C113", "title": "The law of whole bridge paths and of the proposal of mutate_partition", "statement": "A bridge from x to f has the law of the Markov jump process with the given generator started in x, given that it is in f at the end: for every sequence of states from x to f and all ordered bounds on the jump times, the probability of going through exactly these states with the k-th jump no later than the k-th bound is the integral of the path density over these jump times divided by the transition probability from x to f, that is the probability of forward simulation doing so divided by the probability of its ending in f. sample_backwards draws such a path with the path probability divided by the sum over all initial states of the transition probability to f. mutate_partition redraws the pieces independently: the first with the law of sample_backwards, every middle one with the law of the bridge between its old end states, the last with the law of forward simulation from its old first state. So redrawing is reversible for whole paths of the process whose initial states have equal weights: it follows given routes and, redrawn from there, other routes with the same states at the cuts as often as the other way round. A path that is not cut is drawn anew from the stationary process.", "quantifier": "all generators with a moving state, durations, end states, sequences of states of any length, ordered bounds on the jump times, and partitions with any number of pieces (the probabilities are limits as the bound on the length of the series of sample_n_trans grows)", "why_tests_cant": "the path is built from a random number of virtual jumps, states drawn from products of matrix powers, uniform times and the removal of virtual jumps: that the result has the conditional law of the process for every sequence of states is an identity between a series of such laws and an iterated integral, which simulation can only make plausible for a few cells", "anchors": ["ctbayes/mjplib/skeleton.py:sample_bridge", "ctbayes/mjplib/skeleton.py:sample_n_trans", "ctbayes/mjplib/skeleton.py:sample_backwards", "ctbayes/mjplib/skeleton.py:mutate_partition", "ctbayes/mjplib/skeleton.py:sample_forwards"]}
{"id": "C114", "title": "What the two-coin factories cost and what the portkey buys", "statement": "With memoryless coins both factories take more than k flips with probability q ^ k for every k below the budget and never more than the budget, where q = (1 - pr_portkey) times the weighted probability that a flip fails; the mean number of flips is (1 - q ^ budget) / (1 - q). With a portkey it is at most 1 / pr_portkey, for all coins (even coins that never succeed), weights and budgets; without one it tends to m = (exp w1 + exp w2) / (exp w1 p1 + exp w2 p2). In exchange the portkey divides the acceptance probability by exactly 1 + pr_portkey (m - 1). Counting does not change the law of the outcome.", "quantifier": "all finite coins, weights, portkey probabilities in [0, 1] and budgets", "why_tests_cant": "run times are random and unbounded; the bound 1 / pr_portkey over all coins, among them those that almost never succeed, and the exact loss of acceptance cannot be seen in timings of a few runs", "anchors": ["ctbayes/misc/bfactories.py:sample_twocoin", "ctbayes/misc/bfactories.py:sample_twocoin_joint"]}
{"id": "C115", "title": "A single regime, and proposals that change nothing", "statement": "A switching model with one regime can be simulated and its regime path redrawn like any other, and a proposal that equals the present parameters is decided like any other. (Both are violated: with one regime sample_forwards raises ValueError, and mutate_partition never returns; for an unchanged proposal the dual coin gets intensity zero and raises AssertionError, for every Ito model and for every switching model as soon as one piece of the hidden path is in the regime.)", "quantifier": "all horizons, generators and partitions of paths over one state; all models, parameters, seeds, durations, end points, batch sizes and draws", "why_tests_cant": "the doctests use three regimes and continuous proposals; that no draw, horizon or model escapes the two failures is a statement about all of them", "anchors": ["ctbayes/mjplib/skeleton.py:sample_forwards", "ctbayes/mjplib/skeleton.py:mutate_partition", "ctbayes/switching/mcmc.py:flip_param_coins", "ctbayes/switching/mcmc.py:flip_param_coin", "ctbayes/ito/mcmc.py:flip_param_coin"]}
{"id": "C116", "title": "The objective of the M-step is unbiased", "statement": "With uniform support times the estimate of the log augmented likelihood that the M-step maximises has the right mean: log-likelihood minus the integral of the discrepancy along the path, whatever the number of support times. The objective built by update_objective at one parameter and evaluated at another has that mean at the second, plus the log-prior there, for each imputation. In switching only the segments of the selected regime count. The variance of the estimate is inversely proportional to the number of support times.", "quantifier": "all models, parameters, time grids, paths along which the discrepancy is integrable, numbers of support times, imputations and regimes", "why_tests_cant": "an estimate that forgets a duration, or weighs segments wrongly, still looks like a noisy number; only its mean over all support times tells", "anchors": ["ctbayes/ito/mcem.py:est_log_aug_lik", "ctbayes/ito/mcem.py:update_objective", "ctbayes/switching/mcem.py:est_log_aug_lik", "ctbayes/switching/mcem.py:update_objective"]}
