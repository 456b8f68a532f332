{"id": "C01", "title": "DpEventBuilder keeps the whole composed history", "statement": "After any sequence of compose(event, count) calls on a fresh DpEventBuilder, build() returns an event that describes exactly the same sequence of elementary events, in the same order and with the same multiplicities, as the successful calls did: nothing is lost, duplicated or reordered, NoOp events contribute nothing, and a SelfComposed event contributes count copies of its inner event.", "quantifier": "all finite sequences of compose/build calls, all events (arbitrarily nested), all counts", "why_tests_cant": "the builder merges equal neighbours and unfolds SelfComposed recursively; only an induction over call histories covers every merge pattern", "anchors": ["python/dp_accounting/dp_accounting/dp_event_builder.py: DpEventBuilder.compose, DpEventBuilder.build", "python/dp_accounting/dp_accounting/dp_event.py: SelfComposedDpEvent, ComposedDpEvent"]}
{"id": "C02", "title": "DpEventBuilder output is canonical and its cache is invisible", "statement": "build() returns NoOp iff nothing (or only NoOps) was composed, a single event when there is one run, otherwise a Composed event in which consecutive runs differ, every run count is at least 1, and no run is a NoOp or a SelfComposed wrapper around a SelfComposed; calling build() in between (any number of times, anywhere) never changes the result of a later build().", "quantifier": "all interleavings of compose and build calls, all events and counts", "why_tests_cant": "cache invalidation bugs show only on particular interleavings", "anchors": ["python/dp_accounting/dp_accounting/dp_event_builder.py: DpEventBuilder.compose, DpEventBuilder.build"]}
{"id": "C03", "title": "A rejected builder call changes nothing", "statement": "If DpEventBuilder.compose raises (event of the wrong type, count not an int, count < 1, or a product of nested counts < 1), the builder's later build() results are exactly what they would have been had the call never been made.", "quantifier": "all builder states, all events, all counts", "why_tests_cant": "must hold at every reachable state and for every nesting depth at which the error can occur", "anchors": ["python/dp_accounting/dp_accounting/dp_event_builder.py: DpEventBuilder.compose"]}
{"id": "C04", "title": "Unsupported events leave the accountant untouched", "statement": "If PrivacyAccountant.compose raises UnsupportedEventError, then epsilon, delta and the ledger are exactly as before the call, even when the unsupported event is nested deep inside a composed event whose other parts are supported.", "quantifier": "all accountant states (any history), all events, all counts, RDP and PLD accountants", "why_tests_cant": "requires the dry run to visit everything the real run visits, for every event tree", "anchors": ["python/dp_accounting/dp_accounting/privacy_accountant.py: PrivacyAccountant.compose, supports", "python/dp_accounting/dp_accounting/rdp/rdp_privacy_accountant.py: RdpAccountant._maybe_compose", "python/dp_accounting/dp_accounting/pld/pld_privacy_accountant.py: PLDAccountant._maybe_compose"]}
{"id": "C05", "title": "supports(event) predicts UnsupportedEventError exactly", "statement": "supports(event) is True exactly when compose(event, count) does not raise UnsupportedEventError, for every count and whatever has been composed before; and supports never changes the accountant.", "quantifier": "all events, all counts, all accountant histories", "why_tests_cant": "equivalence over all event trees and all histories", "anchors": ["python/dp_accounting/dp_accounting/privacy_accountant.py: PrivacyAccountant.supports, compose", "python/dp_accounting/dp_accounting/rdp/rdp_privacy_accountant.py: RdpAccountant._maybe_compose", "python/dp_accounting/dp_accounting/pld/pld_privacy_accountant.py: PLDAccountant._maybe_compose"]}
{"id": "C06", "title": "The ledger and the accounted privacy loss never disagree", "statement": "At every point of every history, also after compose raised any exception, the privacy loss the accountant reports is the loss of the events in its ledger.", "quantifier": "all histories of compose calls, including calls that raise in the middle", "why_tests_cant": "the failing call can be any event at any depth and at any crash point of the composition", "anchors": ["python/dp_accounting/dp_accounting/privacy_accountant.py: PrivacyAccountant.compose", "python/dp_accounting/dp_accounting/rdp/rdp_privacy_accountant.py: RdpAccountant._maybe_compose", "python/dp_accounting/dp_accounting/pld/pld_privacy_accountant.py: PLDAccountant._maybe_compose"]}
{"id": "C07", "title": "A failing compose never makes the RDP accountant forget earlier events", "statement": "Whatever exception RdpAccountant.compose raises, the RDP, epsilon and delta reported afterwards are at least those reported before the call.", "quantifier": "all histories, all events, all exceptions", "why_tests_cant": "crash-point property: state is temporarily reset inside the call", "anchors": ["python/dp_accounting/dp_accounting/rdp/rdp_privacy_accountant.py: RdpAccountant._maybe_compose (RepeatAndSelectDpEvent branch)"]}
{"id": "C08", "title": "RDP composition is additive, order independent and respects counts", "statement": "Composing the same multiset of events into an RdpAccountant in any order, grouped in Composed/SelfComposed events in any way, or with count=n instead of n calls, yields the same RDP vector, hence the same epsilon and delta; the vector is the sum over all elementary events.", "quantifier": "all events the accountant accepts, all groupings, permutations and counts, all order lists", "why_tests_cant": "universally quantified over event trees and permutations", "anchors": ["python/dp_accounting/dp_accounting/rdp/rdp_privacy_accountant.py: RdpAccountant._maybe_compose", "python/dp_accounting/dp_accounting/privacy_accountant.py: PrivacyAccountant.compose"]}
{"id": "C09", "title": "A non-private event is never forgotten", "statement": "Once a NonPrivate event (or a zero-noise Gaussian) has been composed, at any nesting depth with positive counts, the accountant reports epsilon = infinity for every delta < 1 and delta = 1 for every epsilon, no matter what is composed before or after.", "quantifier": "all histories containing such an event, all later queries", "why_tests_cant": "safety property over all continuations", "anchors": ["python/dp_accounting/dp_accounting/rdp/rdp_privacy_accountant.py: RdpAccountant._maybe_compose, compute_epsilon, compute_delta", "python/dp_accounting/dp_accounting/pld/pld_privacy_accountant.py: PLDAccountant"]}
{"id": "C10", "title": "PLDAccountant respects counts for every event", "statement": "compose(event, n) on a PLDAccountant has the same effect on reported epsilon and delta as composing the event n times, also through SelfComposed and Composed events.", "quantifier": "all supported events, all counts, all histories", "why_tests_cant": "ranges over every event type, count and nesting", "anchors": ["python/dp_accounting/dp_accounting/pld/pld_privacy_accountant.py: PLDAccountant._maybe_compose"]}
{"id": "C11", "title": "Gaussian compositions under subsampling use the right effective noise", "statement": "For any tree of Gaussian events combined with Composed and SelfComposed, the noise multiplier used by the RDP accountant for the subsampled composition is (sum over all Gaussian leaves of count/sigma^2)^(-1/2), whatever the number types of the noise multipliers.", "quantifier": "all event trees of Gaussian events, all counts, int and float noise multipliers", "why_tests_cant": "recursion over arbitrary trees and dynamic types", "anchors": ["python/dp_accounting/dp_accounting/rdp/rdp_privacy_accountant.py: _effective_gaussian_noise_multiplier"]}
{"id": "C12", "title": "delta(epsilon) of a PLD is a valid privacy profile", "statement": "For every privacy loss distribution with non-negative probabilities, get_delta_for_epsilon(eps) equals infinity_mass + sum over losses l > eps of p(l)(1 - e^(eps-l)); it is non-increasing and convex-in-e^eps in eps, lies between infinity_mass and the total mass, and tends to infinity_mass for eps at or above the largest loss.", "quantifier": "all pmfs (sparse and dense), all epsilons", "why_tests_cant": "real-valued universally quantified inequalities", "anchors": ["python/dp_accounting/dp_accounting/pld/pld_pmf.py: _get_delta_for_epsilon, DensePLDPmf.get_delta_for_epsilon, SparsePLDPmf.get_delta_for_epsilon"]}
{"id": "C13", "title": "Vectorised delta queries agree with scalar queries", "statement": "For every sorted list of epsilons, get_delta_for_epsilon(list) returns in each position exactly what get_delta_for_epsilon returns for that epsilon alone.", "quantifier": "all pmfs, all sorted epsilon lists (duplicates, gaps, outside the support)", "why_tests_cant": "two-pointer loop with running aggregates; correctness needs a loop invariant over all inputs", "anchors": ["python/dp_accounting/dp_accounting/pld/pld_pmf.py: _get_delta_for_epsilon_vectorized"]}
{"id": "C14", "title": "epsilon(delta) is valid and smallest", "statement": "get_epsilon_for_delta(delta) returns infinity iff infinity_mass > delta; otherwise a value eps >= 0 with get_delta_for_epsilon(eps) <= delta, and (when the probabilities are positive) no smaller non-negative eps has this property; it never divides by zero.", "quantifier": "all pmfs, all deltas", "why_tests_cant": "closed-form solution chosen by a data-dependent loop exit", "anchors": ["python/dp_accounting/dp_accounting/pld/pld_pmf.py: _get_epsilon_for_delta"]}
{"id": "C15", "title": "Truncating tails is pessimistic (or optimistic) exactly as promised, by at most the truncated mass", "statement": "For a pessimistic pmf, truncation of tails never lowers delta(eps) at any eps and raises it by at most the tail mass; for an optimistic pmf it never raises delta(eps); total probability is preserved in the pessimistic case.", "quantifier": "all pmfs, all truncation masses, all eps", "why_tests_cant": "universally quantified inequality, loop exit depends on data", "anchors": ["python/dp_accounting/dp_accounting/pld/pld_pmf.py: _truncate_tails"]}
{"id": "C16", "title": "Composed PLDs bound adaptive composition", "statement": "If each of two PLDs upper-bounds the privacy curve of a mechanism (for the second: of every mechanism the analyst may choose after seeing the first output), then their composition upper-bounds the privacy curve of the adaptively composed mechanism; by induction for any number of rounds, with any pessimistic tail truncation.", "quantifier": "all finite mechanisms, all adaptive choices of the second mechanism, all eps, any number of compositions", "why_tests_cant": "quantifies over mechanisms and adaptive adversaries", "anchors": ["python/dp_accounting/dp_accounting/pld/pld_pmf.py: DensePLDPmf.compose, SparsePLDPmf.compose", "python/dp_accounting/dp_accounting/pld/privacy_loss_distribution.py: PrivacyLossDistribution.compose", "python/dp_accounting/dp_accounting/pld/common.py: convolve_dictionary"]}
{"id": "C17", "title": "Composition is exact convolution; identity and order do not matter", "statement": "With no truncation, the composed PLD assigns to every loss the convolution of the two pmfs and infinity mass 1-(1-a)(1-b); hence composition is commutative and associative, identity() is neutral, and sparse and dense representations give the same distribution.", "quantifier": "all pmfs, all representations", "why_tests_cant": "algebraic laws over all distributions", "anchors": ["python/dp_accounting/dp_accounting/pld/pld_pmf.py: DensePLDPmf.compose, SparsePLDPmf.compose, compose_pmfs, SparsePLDPmf.to_dense_pmf", "python/dp_accounting/dp_accounting/pld/common.py: convolve_dictionary, dictionary_to_list, list_to_dictionary", "python/dp_accounting/dp_accounting/pld/privacy_loss_distribution.py: identity"]}
{"id": "C18", "title": "self_compose(n) is n-fold composition", "statement": "With no truncation self_compose(n) is the same distribution as composing n copies, in the sparse and in the dense representation; with tail truncation the result is still an upper bound for delta at every eps (pessimistic) and exceeds it by at most twice the tail mass.", "quantifier": "all pmfs, all n >= 1, all truncation masses, all eps", "why_tests_cant": "unbounded n; dense version wraps around cyclically modulo an FFT length and relies on Chernoff bounds", "anchors": ["python/dp_accounting/dp_accounting/pld/pld_pmf.py: DensePLDPmf.self_compose, SparsePLDPmf.self_compose", "python/dp_accounting/dp_accounting/pld/common.py: compute_self_convolve_bounds, self_convolve, self_convolve_dictionary"]}
{"id": "C19", "title": "Tail bounds used for self convolution are valid", "statement": "compute_self_convolve_bounds returns bounds outside of which the n-fold self convolution of any non-negative list has mass at most tail_mass_truncation, and within [0, (len-1)n].", "quantifier": "all probability lists, all n, all truncation masses, all order lists", "why_tests_cant": "Chernoff bound for arbitrary lists and n", "anchors": ["python/dp_accounting/dp_accounting/pld/common.py: compute_self_convolve_bounds"]}
{"id": "C20", "title": "Delta of a composed PLD can be computed without composing", "statement": "get_delta_for_epsilon_for_composed_pld(other, eps) equals compose(other, 0).get_delta_for_epsilon(eps) for all dense pmfs and all eps.", "quantifier": "all pairs of dense pmfs, all eps", "why_tests_cant": "index arithmetic over two aligned arrays; universally quantified", "anchors": ["python/dp_accounting/dp_accounting/pld/pld_pmf.py: DensePLDPmf.get_delta_for_epsilon_for_composed_pld", "python/dp_accounting/dp_accounting/pld/privacy_loss_distribution.py: PrivacyLossDistribution.get_delta_for_epsilon_for_composed_pld"]}
{"id": "C21", "title": "PLDs built from two pmfs bound the true privacy curve", "statement": "from_two_probability_mass_functions with pessimistic estimates yields delta(eps) >= the true hockey-stick divergence at every eps (in both directions), and with optimistic estimates <= it; outcomes with zero probability under one distribution go to the infinity mass or are dropped as required.", "quantifier": "all pairs of finite pmfs, all discretisation intervals, all eps; truncation threshold -inf (and how much is lost otherwise)", "why_tests_cant": "universally quantified over distributions and eps", "anchors": ["python/dp_accounting/dp_accounting/pld/privacy_loss_distribution.py: from_two_probability_mass_functions"]}
{"id": "C22", "title": "Connect-the-dots is a probability distribution that interpolates and dominates", "statement": "create_pmf_pessimistic_connect_dots, given delta values on an epsilon grid, returns a distribution whose delta is at least the given value at every grid epsilon and at least the curve of any mechanism bounded by the values on the grid, at every real eps; when the values come from a genuine privacy curve (convex in e^eps) its probabilities are non-negative, sum to 1, and its delta agrees with the given value at every grid epsilon.", "quantifier": "all grids, all privacy curves, all eps", "why_tests_cant": "interpolation and convexity argument over all reals", "anchors": ["python/dp_accounting/dp_accounting/pld/pld_pmf.py: create_pmf_pessimistic_connect_dots"]}
{"id": "C23", "title": "The fixed-gap connect-the-dots routine agrees with the general one", "statement": "On contiguous grids create_pmf_pessimistic_connect_dots_fixed_gap returns the same distribution as create_pmf_pessimistic_connect_dots.", "quantifier": "all contiguous grids and delta lists", "why_tests_cant": "two different formulas must agree for all inputs", "anchors": ["python/dp_accounting/dp_accounting/pld/pld_pmf.py: create_pmf_pessimistic_connect_dots, create_pmf_pessimistic_connect_dots_fixed_gap"]}
{"id": "C24", "title": "Randomized response PLDs bound k-ary randomized response", "statement": "from_randomized_response returns a PLD whose delta is at least the exact hockey-stick divergence of k-ary randomized response under the chosen neighbouring relation at every eps, with equality when the discretisation divides the loss.", "quantifier": "all p in (0,1), all bucket numbers, all relations, all discretisations, all eps", "why_tests_cant": "closed-form construction; universally quantified", "anchors": ["python/dp_accounting/dp_accounting/pld/privacy_loss_distribution.py: from_randomized_response"]}
{"id": "C25", "title": "from_privacy_parameters dominates every (eps, delta)-DP mechanism", "statement": "The PLD returned by from_privacy_parameters((eps0, delta0)) upper-bounds the privacy curve of every mechanism that is (eps0, delta0)-DP in both directions, at every eps.", "quantifier": "all finite (eps0,delta0)-indistinguishable pairs of distributions, all eps, all discretisations", "why_tests_cant": "quantifies over all mechanisms", "anchors": ["python/dp_accounting/dp_accounting/pld/privacy_loss_distribution.py: from_privacy_parameters", "python/dp_accounting/dp_accounting/pld/common.py: DifferentialPrivacyParameters"]}
{"id": "C26", "title": "inverse_privacy_loss is the exact generalized inverse of privacy_loss", "statement": "For the additive noise mechanisms, x <= inverse_privacy_loss(l) iff privacy_loss(x) >= l (up to the documented convention at unattained losses), for add and remove adjacency and any sampling probability; privacy_loss is non-increasing in x.", "quantifier": "all noise parameters, sensitivities, sampling probabilities, losses and outcomes", "why_tests_cant": "Galois connection over the reals / integers", "anchors": ["python/dp_accounting/dp_accounting/pld/privacy_loss_mechanism.py: AdditiveNoisePrivacyLoss, LaplacePrivacyLoss, GaussianPrivacyLoss, DiscreteLaplacePrivacyLoss, DiscreteGaussianPrivacyLoss"]}
{"id": "C27", "title": "Mechanism delta is the hockey-stick divergence", "statement": "get_delta_for_epsilon of an additive noise mechanism equals sup over events S of P(S) - e^eps Q(S) for the (subsampled) pair of output distributions.", "quantifier": "all parameters, all eps, all events S (finite unions of intervals, or all subsets of the support in the discrete case)", "why_tests_cant": "supremum over all events", "anchors": ["python/dp_accounting/dp_accounting/pld/privacy_loss_mechanism.py: AdditiveNoisePrivacyLoss.get_delta_for_epsilon"]}
{"id": "C28", "title": "from_privacy_guarantee delivers the guarantee", "statement": "The mechanism constructed by from_privacy_guarantee of the Laplace, discrete Laplace and Gaussian mechanisms makes every query of the given sensitivity (eps, delta)-DP, also with subsampling, and the search for it returns; no smaller amount of noise would do (up to 1e-7 for Gaussian noise).", "quantifier": "all privacy parameters, sensitivities, sampling probabilities", "why_tests_cant": "universally quantified real arithmetic", "anchors": ["python/dp_accounting/dp_accounting/pld/privacy_loss_mechanism.py: LaplacePrivacyLoss.from_privacy_guarantee, DiscreteLaplacePrivacyLoss.from_privacy_guarantee, GaussianPrivacyLoss.from_privacy_guarantee"]}
{"id": "C29", "title": "advanced_composition is the optimal composition of k (eps,delta)-mechanisms", "statement": "If advanced_composition((eps, delta), k, total_delta) returns e, every adaptive sequence of k queries that are each (eps, delta)-DP is (e, total_delta)-DP. e is the smallest of the values eps*(k-2i) for which this holds already for k runs of the leakiest (eps, delta)-DP computation, hence optimal up to 2*eps; None is returned exactly when no epsilon is valid.", "quantifier": "all eps, delta, k, total_delta, adaptive analysts and queries", "why_tests_cant": "unbounded k", "anchors": ["python/dp_accounting/dp_accounting/pld/accountant.py: advanced_composition"]}
{"id": "C30", "title": "Per-query epsilon from advanced composition is valid", "statement": "get_smallest_epsilon_from_advanced_composition returns a per-query epsilon such that every adaptive sequence of that many (epsilon, delta)-DP queries meets the total guarantee; no epsilon in its range that is larger by more than the tolerance does; None only if no per-query epsilon works; the search terminates.", "quantifier": "all total parameters, numbers of queries, per-query deltas, adaptive analysts", "why_tests_cant": "search over a grid of unbounded size", "anchors": ["python/dp_accounting/dp_accounting/pld/accountant.py: get_smallest_epsilon_from_advanced_composition"]}
{"id": "C31", "title": "inverse_monotone_function returns a valid and nearly optimal argument", "statement": "For a monotone function, inverse_monotone_function(f, v, params) returns x in the search range with f(x) <= v such that the best x is within the tolerance (or is the best integer for discrete search); it returns None only if no x in the range satisfies f(x) <= v.", "quantifier": "all monotone functions, all values, all search parameters with or without initial guess", "why_tests_cant": "unbounded search with exponential bracketing; needs loop invariants", "anchors": ["python/dp_accounting/dp_accounting/pld/common.py: inverse_monotone_function"]}
{"id": "C32", "title": "Bisection always returns a point with non-positive value", "statement": "The bisection fallback returns an argument whose function value is <= 0 and which is within tol of a sign change, for any function with a sign change on the interval.", "quantifier": "all functions, intervals and tolerances", "why_tests_cant": "recursion of data-dependent depth", "anchors": ["python/dp_accounting/dp_accounting/mechanism_calibration.py: _bisect"]}
{"id": "C33", "title": "Bracket search is sound and bounded", "statement": "_search_for_explicit_bracket_interval either returns an interval whose end point values have opposite signs (or one is zero), having grown geometrically from the guess, or raises NoBracketIntervalFoundError after exactly 30 widenings; it evaluates the function at most 32 times.", "quantifier": "all functions and initial intervals", "why_tests_cant": "adversarial functions", "anchors": ["python/dp_accounting/dp_accounting/mechanism_calibration.py: _search_for_explicit_bracket_interval"]}
{"id": "C34", "title": "A calibrated mechanism never exceeds the target epsilon", "statement": "Whenever calibrate_dp_mechanism returns, the returned parameter's event has epsilon <= target_epsilon at target_delta according to a fresh accountant, whatever the root finder returned, for continuous and discrete parameters. For a discrete parameter the result is the integer nearest to the root that the root finder reports, when it meets the target.", "quantifier": "all accountants, all parameter-to-event functions (not nec. monotone), all behaviours of the external root finder, all tolerances and brackets", "why_tests_cant": "quantifies over adversarial numerical oracles", "anchors": ["python/dp_accounting/dp_accounting/mechanism_calibration.py: calibrate_dp_mechanism"]}
{"id": "C35", "title": "Smallest noise search returns noise that meets the target", "statement": "get_smallest_laplace_noise, get_smallest_discrete_laplace_noise, get_smallest_gaussian_noise, get_smallest_subsampled_gaussian_noise and get_smallest_parameter return a parameter with which every adaptive interaction of the given number of queries satisfies the requested (eps, delta); for Gaussian noise none smaller by more than 1e-7 would do.", "quantifier": "all privacy parameters, numbers of queries and sensitivities", "why_tests_cant": "real-valued search", "anchors": ["python/dp_accounting/dp_accounting/pld/accountant.py: get_smallest_parameter, get_smallest_laplace_noise, get_smallest_discrete_laplace_noise, get_smallest_gaussian_noise, get_smallest_subsampled_gaussian_noise"]}
{"id": "C36", "title": "epsilon reported from RDP is a valid (eps, delta) guarantee", "statement": "If a mechanism satisfies RDP bounds rdp[i] at orders[i], then it is (compute_epsilon(orders, rdp, delta), delta)-DP.", "quantifier": "all finite mechanisms, all order lists >= 1, all RDP vectors, all deltas in [0,1]", "why_tests_cant": "quantifies over mechanisms; conversion uses three different bounds", "anchors": ["python/dp_accounting/dp_accounting/rdp/rdp_privacy_accountant.py: compute_epsilon"]}
{"id": "C37", "title": "delta reported from RDP is a valid (eps, delta) guarantee", "statement": "If a mechanism satisfies RDP bounds rdp[i] at orders[i], then it is (eps, compute_delta(orders, rdp, eps))-DP; the value lies in [0,1].", "quantifier": "all finite mechanisms, all order lists, all RDP vectors, all eps >= 0", "why_tests_cant": "quantifies over mechanisms", "anchors": ["python/dp_accounting/dp_accounting/rdp/rdp_privacy_accountant.py: compute_delta"]}
{"id": "C38", "title": "Reported epsilon and delta are monotone in the privacy loss", "statement": "Composing more events never decreases the reported epsilon (for fixed delta) or delta (for fixed eps); compute_epsilon is non-increasing in delta.", "quantifier": "all histories, all orders, all deltas and epsilons", "why_tests_cant": "monotonicity over all histories", "anchors": ["python/dp_accounting/dp_accounting/rdp/rdp_privacy_accountant.py: compute_epsilon, compute_delta, RdpAccountant", "python/dp_accounting/dp_accounting/pld/pld_privacy_accountant.py: PLDAccountant"]}
{"id": "C39", "title": "RDP accounting bounds adaptive composition", "statement": "If every composed event's mechanism satisfies the RDP curve the accountant charges for that event, then the adaptive composition satisfies the accountant's accumulated RDP, so the reported (eps, delta) holds for the whole interaction.", "quantifier": "all finite mechanisms, all adaptive strategies, all histories", "why_tests_cant": "quantifies over adaptive adversaries and unbounded histories", "anchors": ["python/dp_accounting/dp_accounting/rdp/rdp_privacy_accountant.py: RdpAccountant._maybe_compose, get_epsilon, get_delta"]}
{"id": "C40", "title": "Randomized response RDP is exact", "statement": "The RDP charged for k-ary randomized response equals its Renyi divergence at every order (REPLACE_SPECIAL and REPLACE_ONE), 0 when p = 1, infinity when p = 0, and the limit max-divergence at order infinity.", "quantifier": "all p, bucket numbers and orders", "why_tests_cant": "closed form vs definition for all parameters", "anchors": ["python/dp_accounting/dp_accounting/rdp/rdp_privacy_accountant.py: _randomized_response_rdp_replace_special, _randomized_response_rdp_replace_one, _compute_randomized_response_rdp"]}
{"id": "C41", "title": "Poisson-subsampled Gaussian RDP at integer orders is the binomial sum", "statement": "For integer order a the value computed in log space is exactly log sum_i C(a,i) q^i (1-q)^(a-i) e^((i^2-i)/(2 sigma^2)); it is non-negative, increases with q, is at most the unsampled value and equals it for q = 1.", "quantifier": "all integer orders >= 2, sampling probabilities and noise multipliers", "why_tests_cant": "unbounded order", "anchors": ["python/dp_accounting/dp_accounting/rdp/rdp_privacy_accountant.py: _compute_log_a_int, _compute_rdp_poisson_subsampled_gaussian, _log_add"]}
{"id": "C42", "title": "Tree aggregation charges every record for its maximal number of tree nodes", "statement": "For a single-epoch tree aggregation the depth charged equals the maximum, over steps and restarts, of the number of complete binary tree nodes that contain one step: no step is in more nodes and some step attains the bound.", "quantifier": "all step counts (lists of positive integers), all steps", "why_tests_cant": "combinatorial statement for all sizes", "anchors": ["python/dp_accounting/dp_accounting/rdp/rdp_privacy_accountant.py: _compute_rdp_single_epoch_tree_aggregation"]}
{"id": "C43", "title": "Log-space arithmetic helpers compute what they say", "statement": "_log_add, _log_sub, _log_sub_sign and log_a_times_exp_b_plus_c return log(e^x+e^y), log(e^x-e^y), (sign, log|e^x-e^y|) and log(a e^b + c) for all arguments in their domain including -infinity and equal arguments.", "quantifier": "all extended-real arguments", "why_tests_cant": "case analysis over infinities and ordering", "anchors": ["python/dp_accounting/dp_accounting/rdp/rdp_privacy_accountant.py: _log_add, _log_sub_sign", "python/dp_accounting/dp_accounting/pld/common.py: _log_add, _log_sub, log_a_times_exp_b_plus_c"]}
{"id": "C44", "title": "Forward differences in log space are correct", "statement": "_get_forward_diffs returns log|Delta^k f(0)| for all k up to n, as required by the sampling-without-replacement bound.", "quantifier": "all functions and all n", "why_tests_cant": "in-place sign/magnitude recurrences of unbounded depth", "anchors": ["python/dp_accounting/dp_accounting/rdp/rdp_privacy_accountant.py: _stable_inplace_diff_in_log, _get_forward_diffs"]}
{"id": "C45", "title": "Infinite Renyi order", "statement": "Supplying an infinite order to the RDP accountant never lowers the reported epsilon below what the finite orders guarantee would allow, i.e. the reported epsilon is still a valid guarantee.", "quantifier": "all order lists containing infinity, all RDP vectors", "why_tests_cant": "interaction of special float values (NaN ordering in argmin/max) with every RDP vector", "anchors": ["python/dp_accounting/dp_accounting/rdp/rdp_privacy_accountant.py: compute_epsilon"]}
{"id": "C46", "title": "Repeat-and-select parameters are inverted conservatively", "statement": "_gamma_truncated_negative_binomial returns a gamma whose truncated negative binomial mean is at least the requested mean, so that the privacy charge is never too small.", "quantifier": "all shapes and means", "why_tests_cant": "binary search over reals", "anchors": ["python/dp_accounting/dp_accounting/rdp/rdp_privacy_accountant.py: _gamma_truncated_negative_binomial, _truncated_negative_binomial_mean"]}
{"id": "C47", "title": "Dictionary/list conversions lose nothing", "statement": "list_to_dictionary(dictionary_to_list(d)) assigns every key the same probability as d; conversely a list and offset are recovered up to zero padding; truncating while converting only removes tails of at most the given mass.", "quantifier": "all dictionaries with integer keys, all lists and offsets", "why_tests_cant": "arbitrary key sets with gaps and negative keys", "anchors": ["python/dp_accounting/dp_accounting/pld/common.py: dictionary_to_list, list_to_dictionary"]}
{"id": "C48", "title": "Events survive serialisation", "statement": "from_named_tuple(to_named_tuple(e)) == e for every event, including nested ones.", "quantifier": "all event trees", "why_tests_cant": "arbitrary nesting", "anchors": ["python/dp_accounting/dp_accounting/dp_event.py: DpEvent.to_named_tuple, DpEvent.from_named_tuple"]}
{"id": "C49", "title": "Clustering: each record influences at most the number of noisy releases that were accounted for", "statement": "In the private LSH clustering each data point is contained in at most max_depth + 1 nodes whose noisy counts are released and in at most one leaf whose noisy average is released, whatever the noise values are; these are exactly the counts of the event that is accounted. Hence adding or removing a point is hidden by shifting at most max_depth + 1 count noises by 1 and one sum noise by at most the radius: the same centers come out.", "quantifier": "all data sets, hash functions, noise outcomes, thresholds and depths", "why_tests_cant": "adversarial noise outcomes drive the tree shape", "anchors": ["learning/clustering/lsh_tree.py: LshTree, LshTreeNode.children", "learning/clustering/privacy_calculator.py: make_clustering_event", "learning/clustering/clustering_algorithm.py: get_private_coreset"]}
{"id": "C50", "title": "Clustering: data are clipped to the declared radius", "statement": "After clip_by_radius every point has norm at most radius, points already inside are unchanged, and directions are preserved, so the sensitivity used in the accounting is valid.", "quantifier": "all data sets and radii > 0", "why_tests_cant": "real arithmetic for all points", "anchors": ["learning/clustering/clustering_params.py: Data.clip_by_radius", "learning/clustering/clustering_algorithm.py: private_lsh_clustering"]}
{"id": "C51", "title": "Clustering: calibrated noise passes its own accounting check", "statement": "If the privacy calculator is constructed and validate_accounting does not raise, the accounted (eps, delta) of the clustering event is within the requested budget; default tree parameters are always valid whatever the noisy count is. The two noises of a constructed calculator stand in the ratio given by the multipliers.", "quantifier": "all privacy parameters, multipliers, radii, depths, noisy counts", "why_tests_cant": "composition of search, accounting and validation over all inputs", "anchors": ["learning/clustering/privacy_calculator.py: PrivacyCalculator", "learning/clustering/default_clustering_params.py: default_tree_param", "learning/clustering/clustering_params.py: TreeParam, PrivacyCalculatorMultiplier"]}
{"id": "C52", "title": "Sparse vector mechanisms stop answering at the cutoff", "statement": "In every sample of an SVT mechanism at most max_answered_queries outputs are above-threshold answers and every output after the last of them is NO_RESPONSE; before the cutoff the outputs are exactly the threshold comparisons.", "quantifier": "all noise outcomes, queries, thresholds and cutoffs", "why_tests_cant": "adversarial noise outcomes; vectorised loop with early break", "anchors": ["python/dp_auditorium/dp_auditorium/mechanisms/sparse_vector_technique.py: AbstractSVTMechanism.__call__"]}
{"id": "C53", "title": "The privacy test runner reports a violation only on a rejected estimate", "statement": "test_privacy reports FOUND_PRIVACY_VIOLATION iff some trial's estimate was rejected by the property tester, stops at the first such trial, reports exactly the estimates of the inspected trials, and otherwise runs exactly max_num_trials trials; the dataset generator is fed the previous trial's estimate.", "quantifier": "all testers, generators, mechanisms and trial limits", "why_tests_cant": "stateful adversarial collaborators", "anchors": ["python/dp_auditorium/dp_auditorium/privacy_test_runner.py: PrivacyTestRunner.test_privacy"]}
{"id": "C54", "title": "Histogram tester's point estimate is the empirical hockey-stick divergence", "statement": "The estimate before error correction equals sup over sets S of empirical P(S) - e^eps Q(S); the reported value never exceeds it, so if the empirical distributions satisfy (eps, delta) the tester does not reject.", "quantifier": "all samples, universe sizes, epsilons, failure probabilities", "why_tests_cant": "supremum over sets, all samples", "anchors": ["python/dp_auditorium/dp_auditorium/testers/histogram_tester.py: HistogramTester.estimate_lower_bound, _estimate_discrete_distribution"]}
{"id": "C55", "title": "create_from_cdf bounds the loss distribution with that CDF", "statement": "For a privacy loss distribution given by its cumulative distribution function, the pessimistic estimate of create_from_cdf has a delta that is at every eps at least the true one and at most the true one at eps minus the discretization interval plus the tail mass; the optimistic estimate is symmetric; both loops end when the infinite-loss probability is at most half of the tail mass.", "quantifier": "all finitely supported loss distributions, discretization intervals, tail masses, eps", "why_tests_cant": "all distributions and all real eps", "anchors": ["python/dp_accounting/dp_accounting/pld/privacy_loss_distribution.py: create_from_cdf"]}
{"id": "C56", "title": "Privacy loss distributions of additive noise mechanisms bound every query", "statement": "A privacy loss distribution that from_laplace_mechanism, from_gaussian_mechanism, from_discrete_laplace_mechanism or from_discrete_gaussian_mechanism returns with a pessimistic estimate, by connect-the-dots or by privacy buckets, bounds at every epsilon and in both directions every query of the given sensitivity protected with the noise on a Poisson sample; with an optimistic estimate its delta is never above that of the worst such query. For valid parameters the constructors terminate without an exception.", "quantifier": "all noise parameters, sensitivities, sampling probabilities, discretization intervals (no grid point within a relative 1e-9 of the bound on the loss), epsilons, queries and observations", "why_tests_cant": "all real epsilons, all parameters and all queries; the rounding of every bucket must be in the safe direction", "anchors": ["python/dp_accounting/dp_accounting/pld/privacy_loss_distribution.py: _create_pld_pmf_from_monotone_privacy_loss, _pld_for_subsampled_mechanism, from_laplace_mechanism, from_gaussian_mechanism, from_discrete_laplace_mechanism, from_discrete_gaussian_mechanism", "python/dp_accounting/dp_accounting/pld/privacy_loss_mechanism.py: privacy_loss_tail, connect_dots_bounds"]}
{"id": "C57", "title": "Dictionary convolutions give the distribution of the sum", "statement": "convolve_dictionary(d1, d2) gives every set of keys the weight of the sum of two independent draws and self_convolve_dictionary(d, n) that of n independent draws, up to the given tail mass.", "quantifier": "all integer-keyed dictionaries with non-negative values, numbers of draws and tail masses", "why_tests_cant": "arbitrary key sets and number of convolutions, circular FFT wrap-around", "anchors": ["python/dp_accounting/dp_accounting/pld/common.py: convolve_dictionary, self_convolve_dictionary, self_convolve"]}
{"id": "C58", "title": "PLDAccountant is sound end to end for noise mechanisms", "statement": "After any sequence of accepted compose calls with events of Gaussian, Laplace, Poisson-sampled Gaussian or Laplace mechanisms, mixtures of Gaussians and randomised response, get_delta(eps) and get_epsilon(delta) of a PLDAccountant hold, up to a numerical error that the events determine, for every adaptive interaction in which each event stands for a query with noise of that multiplier times its sensitivity.", "quantifier": "all event sequences and nestings, counts, noise multipliers, sampling probabilities, sensitivities, adaptive choices, eps and delta", "why_tests_cant": "all histories and all adaptive interactions; chains the constructors, the truncation of tails and the composition", "anchors": ["python/dp_accounting/dp_accounting/pld/pld_privacy_accountant.py: PLDAccountant", "python/dp_accounting/dp_accounting/pld/privacy_loss_distribution.py: from_gaussian_mechanism, from_laplace_mechanism, from_randomized_response"]}
{"id": "C59", "title": "RdpAccountant is sound end to end", "statement": "After any sequence of accepted compose calls, get_delta(eps) and get_epsilon(delta) of an RdpAccountant hold for every adaptive interaction in which each elementary event stands for a computation it describes: a query with Gaussian or Laplace noise of the given multiplier times its sensitivity, such queries on a Poisson sample or on a sample without replacement, randomised response, tree aggregation in which a record takes part in one step, or the selection of the best of a random number of runs.", "quantifier": "all event sequences and nestings, counts, noise multipliers, sampling probabilities, sensitivities, orders, neighbouring relations, adaptive choices, eps and delta", "why_tests_cant": "all histories and all adaptive interactions with continuous noise; chains the RDP formulas of the mechanisms (both directions of the divergence), additivity, and the conversion", "anchors": ["python/dp_accounting/dp_accounting/rdp/rdp_privacy_accountant.py: RdpAccountant, _compute_rdp_poisson_subsampled_gaussian, _laplace_rdp, _compute_randomized_response_rdp, _compute_rdp_single_epoch_tree_aggregation, _effective_gaussian_noise_multiplier", "python/dp_accounting/dp_accounting/privacy_accountant.py: PrivacyAccountant.compose"]}
{"id": "C60", "title": "The histogram tester rarely rejects a private mechanism", "statement": "HistogramTester.estimate_lower_bound followed by reject_property rejects two samples drawn from a mechanism that satisfies (eps, delta) differential privacy on the two datasets with probability at most failure_probability / 2.", "quantifier": "all finite distributions of outcomes, mechanisms, epsilons, deltas, universe sizes, sample sizes and failure probabilities, with both error corrections and for discrete and continuous values", "why_tests_cant": "a probability over samples for every private mechanism; tests can only simulate a few", "anchors": ["python/dp_auditorium/dp_auditorium/testers/histogram_tester.py: HistogramTester.estimate_lower_bound, reject_property, _get_error_tolerance"]}
{"id": "C61", "title": "An audit rarely accuses a private mechanism", "statement": "PrivacyTestRunner.test_privacy with a HistogramTester on a mechanism that satisfies (eps, delta) differential privacy on all datasets that the generator proposes reports FOUND_PRIVACY_VIOLATION with probability at most max_num_trials * failure_probability / 2, also when the generator adapts to the estimates.", "quantifier": "all mechanisms reading independent random outcomes, adaptive generators, numbers of trials and samples, failure probabilities", "why_tests_cant": "a probability over adaptive runs of stateful collaborators", "anchors": ["python/dp_auditorium/dp_auditorium/privacy_test_runner.py: PrivacyTestRunner.test_privacy", "python/dp_auditorium/dp_auditorium/testers/histogram_tester.py: HistogramTester"]}
{"id": "C62", "title": "The RDP of selecting the best run is a bound", "statement": "When a computation whose Renyi divergences are bounded by the RDP values accumulated for the inner event is run a random number of times (Poisson, or truncated negative binomial of the declared shape, with a mean at most the declared one) and only the best run is released, outcomes being ranked without ties, the RDP that RdpAccountant computes for the RepeatAndSelectDpEvent bounds the Renyi divergences of the release, at every order and in both directions. Since the success probability is found numerically, the mean of a non-geometric negative binomial distribution has to lie a relative 6e-90 below the declared one; order 1 is excluded for the negative binomial.", "quantifier": "all computations, rankings, orders, RDP values, shapes (also infinite), means and success probabilities", "why_tests_cant": "an inequality between divergences of infinite mixtures, for all mechanisms; tests compare formulas at a few parameters", "anchors": ["python/dp_accounting/dp_accounting/rdp/rdp_privacy_accountant.py: _compute_rdp_repeat_and_select, _gamma_truncated_negative_binomial, _truncated_negative_binomial_mean", "python/dp_accounting/dp_accounting/dp_event.py: RepeatAndSelectDpEvent"]}
{"id": "C63", "title": "The default truncation of discrete Gaussian noise is negligible", "statement": "When DiscreteGaussianPrivacyLoss / from_discrete_gaussian_mechanism is used without a truncation bound, the probability that discrete Gaussian noise (on all integers) falls outside the range that is accounted for is at most 1e-30, as documented; hence the pessimistic privacy loss distribution holds, up to 1e-30 in delta, for queries answered with discrete Gaussian noise that is not truncated.", "quantifier": "all sigma > 0, integer sensitivities, sampling probabilities, discretization intervals, queries and epsilon", "why_tests_cant": "an infinite tail sum for every positive real sigma; tests only see the truncated array", "anchors": ["python/dp_accounting/dp_accounting/pld/privacy_loss_mechanism.py: DiscreteGaussianPrivacyLoss.__init__", "python/dp_accounting/dp_accounting/pld/privacy_loss_distribution.py: from_discrete_gaussian_mechanism"]}
{"id": "C64", "title": "The privacy of Gaussian noise with a random sensitivity is bounded", "statement": "MixtureGaussianPrivacyLoss computes the privacy loss of the pair (Gaussian, mixture of Gaussians); get_delta_for_epsilon of a list of epsilons with one on the far side of 0 is the hockey-stick divergence of that pair up to the stated error of the numerical inversion; privacy_loss_tail cuts off at most the allowed mass; and the deltas of from_mixture_gaussian_mechanism with its default settings bound, up to that error, the privacy of every query whose answer is shifted by a random amount with the given bounds and probabilities, in both directions, and the construction returns. (The total probability of a positive sensitivity has to be at least 2e-8 unless there is only one such sensitivity.) Outside these conditions it fails: a single epsilon, inverse_privacy_loss and use_connect_dots=False can be badly wrong (delta below 0.1 where it should be above 0.9).", "quantifier": "all standard deviations, lists of sensitivities and probabilities summing to 1, discretization intervals, truncation bounds, queries, sets of outputs and epsilon", "why_tests_cant": "numerical inversion of a function without closed form, for every list of sensitivities; the bound is about all queries and all events", "anchors": ["python/dp_accounting/dp_accounting/pld/privacy_loss_mechanism.py: MixtureGaussianPrivacyLoss", "python/dp_accounting/dp_accounting/pld/privacy_loss_distribution.py: from_mixture_gaussian_mechanism"]}
{"id": "C65", "title": "The sparse vector mechanisms are as private as documented", "statement": "One sample of SVT1 or SVT2 is epsilon-differentially private, one sample of SVT4 is (1 + 6 max_answered_queries) epsilon / 4-differentially private and one sample of SVT6 is (1/2 + max_answered_queries) epsilon-differentially private, for record-revealing queries on any two datasets and for sum queries when one record is replaced. With one answer these numbers cannot be improved, so that SVT4 is not epsilon-differentially private. SVT3 and SVT5 are not private for any epsilon. (For sum queries the declared sensitivity does not cover an added record.)", "quantifier": "all configurations with positive epsilon, numbers of queries and answers, datasets, sets of output rows", "why_tests_cant": "a bound on the ratio of probabilities of all sets of outputs for continuous noise, for every pair of datasets; the auditing tests of this library can only refute it", "anchors": ["python/dp_auditorium/dp_auditorium/mechanisms/sparse_vector_technique.py: SVT1, SVT2, SVT3, SVT4, SVT5, SVT6, AbstractSVTMechanism.__call__"]}
{"id": "C66", "title": "Noisy max is the exponential mechanism and epsilon-differentially private", "statement": "NoisyMaxMechanism returns the first element with the largest noisy count; the probability of an element is that of the exponential mechanism with the count as utility, and the mechanism is epsilon-differentially private when one record is replaced (epsilon/2 when one is added or removed).", "quantifier": "all epsilon > 0, numbers of elements, datasets and noise", "why_tests_cant": "probabilities of continuous noise, for every pair of datasets", "anchors": ["python/dp_auditorium/dp_auditorium/mechanisms/noisy_max.py: NoisyMaxMechanism"]}
{"id": "C67", "title": "The RDP of a sample drawn without replacement is a bound", "statement": "With NeighboringRelation.REPLACE_ONE, the RDP that RdpAccountant charges for SampledWithoutReplacementDpEvent(source_dataset_size, sample_size, Gaussian noise on the sample) bounds the Renyi divergences, in both directions and at every order above 1, of every computation that draws a sample of that size uniformly without replacement, whatever is computed on it with Gaussian noise relative to the sensitivity, when one record is replaced; and for every history of composed events under this relation the reported epsilon and delta are guarantees for every adaptive interaction.", "quantifier": "all dataset and sample sizes, records, noise multipliers, trees of Gaussian events, orders, histories, adaptive interactions and sets of outputs", "why_tests_cant": "an inequality between divergences of mixtures over all samples, for every mechanism; tests compare the formula with another evaluation of it at a few parameters", "anchors": ["python/dp_accounting/dp_accounting/rdp/rdp_privacy_accountant.py: _compute_rdp_sample_wor_gaussian, _compute_rdp_sample_wor_gaussian_scalar, _compute_rdp_sample_wor_gaussian_int, RdpAccountant._maybe_compose", "python/dp_accounting/dp_accounting/dp_event.py: SampledWithoutReplacementDpEvent"]}
{"id": "C68", "title": "The series for fractional orders bounds the moment of sampled Gaussian noise up to a stated error", "statement": "For a Poisson-sampled Gaussian event with sampling probability strictly between 0 and 1 and a fractional order a above 1, the log moment from which RdpAccountant computes the RDP is either infinite (the order is then not used) or at most 2^(floor(a)+2) * e^-30, relative to the moment, below the true moment of every computation that the event describes; if the series does not stop before it has passed the order, it is not below it at all.", "quantifier": "all sampling probabilities, noise multipliers, fractional orders, and sets of Gaussian queries with this joint noise", "why_tests_cant": "a series truncated by a stopping rule, against an integral, for every real parameter; tests compare it with numerical integration at a few of them", "anchors": ["python/dp_accounting/dp_accounting/rdp/rdp_privacy_accountant.py: _compute_log_a_frac, _log_erfc, _log_comb, _log_add, _compute_log_a"]}
{"id": "C69", "title": "RdpAccountant with fractional orders is sound up to the stated error of its series", "statement": "For every history of composed events accepted by RdpAccountant (Poisson-sampled events not inside RepeatAndSelectDpEvent) and every adaptive interaction made of computations the events describe, the accountant's RDP, raised at each fractional order a by n * 2^(floor(a)+2) * e^-30 / (a-1) where n is the number of Poisson-sampled events, bounds the Renyi divergences in both directions, and the epsilon and delta converted from the raised values are guarantees.", "quantifier": "all histories, neighbouring relations, lists of orders, adaptive interactions, deltas, epsilons and sets of outputs", "why_tests_cant": "a guarantee over all adversaries and histories, for real-valued orders; nothing is assumed of the numerical series", "anchors": ["python/dp_accounting/dp_accounting/rdp/rdp_privacy_accountant.py: RdpAccountant._maybe_compose, RdpAccountant.get_epsilon, RdpAccountant.get_delta, _compute_rdp_poisson_subsampled_gaussian, _compute_log_a_frac, compute_epsilon, compute_delta"]}
{"id": "C70", "title": "The hockey-stick tester rarely rejects a mechanism that is private", "statement": "HockeyStickPropertyTester, configured with epsilon and delta and given n samples of each output distribution of an (epsilon, delta)-differentially private mechanism, reports an estimate that is rejected with probability at most the failure probability, whatever model the training produces; the estimate is, with this confidence, a lower bound on the hockey-stick divergence of any mechanism, and it is 1 less the allowance when the trained model separates the samples. Its model is trained on the first halves of the samples, labelled by their dataset, and evaluated on the second halves only.", "quantifier": "all mechanisms, sample sizes, failure probabilities, configurations the constructor accepts, and training procedures (with any randomness or state)", "why_tests_cant": "a probability over all samples, for every private mechanism and every outcome of training; tests run a few mechanisms and seeds", "anchors": ["python/dp_auditorium/dp_auditorium/testers/hockey_stick_tester.py: HockeyStickPropertyTester", "python/dp_auditorium/dp_auditorium/testers/divergence_tester.py: DivergencePropertyTester.estimate_lower_bound", "python/dp_auditorium/dp_auditorium/testers/property_tester_utils.py: split_train_test_samples, initialize_and_validate_training_config"]}
{"id": "C71", "title": "The Renyi tester rarely rejects a mechanism that satisfies its guarantee", "statement": "RenyiPropertyTester with an order above 1, given samples of the output distributions of a mechanism that satisfies the configured pure or Renyi guarantee, reports an estimate that is rejected with probability at most the failure probability, whatever network the training produces; the estimate is, with this confidence, a lower bound on the Renyi divergence of the mechanism.", "quantifier": "all mechanisms, numbers of samples of the two distributions, failure probabilities, orders above 1, configurations the constructor accepts, and training procedures", "why_tests_cant": "a probability over all samples for every mechanism that satisfies the guarantee", "anchors": ["python/dp_auditorium/dp_auditorium/testers/renyi_tester.py: RenyiPropertyTester, make_default_renyi_base_model", "python/dp_auditorium/dp_auditorium/testers/divergence_tester.py: DivergencePropertyTester.estimate_lower_bound"]}
{"id": "C72", "title": "A whole audit with these testers rarely reports a violation by a private mechanism", "statement": "PrivacyTestRunner.test_privacy with the hockey-stick or the Renyi tester, on a mechanism that satisfies the guarantee on every pair of datasets the generator may produce, reports a violation with probability at most twice the failure probability for every trial (times the rounding factor of the hockey-stick tester), where datasets are chosen adaptively, samples may be post-processed, and generator and training share a state of any kind.", "quantifier": "all mechanisms, adaptive dataset generators, training procedures, numbers of trials and samples, failure probabilities, and post-processing by a function of each sample", "why_tests_cant": "a probability over adaptive executions of any length", "anchors": ["python/dp_auditorium/dp_auditorium/privacy_test_runner.py: PrivacyTestRunner.test_privacy", "python/dp_auditorium/dp_auditorium/testers/hockey_stick_tester.py: HockeyStickPropertyTester", "python/dp_auditorium/dp_auditorium/testers/renyi_tester.py: RenyiPropertyTester"]}
{"id": "C73", "title": "The MMD tester rarely rejects a private mechanism, and rejects exactly when the discrepancy exceeds a stated bound", "statement": "MMDPropertyTester, configured with epsilon, delta and a bandwidth that is not negative, and given any numbers of samples of the two output distributions of an (epsilon, delta)-differentially private mechanism, rejects with probability at most the failure probability; the estimate is with this confidence a lower bound on every delta for which the mechanism is private; it rejects exactly when the average of the kernel statistic exceeds the bound for (epsilon, delta) by more than the smaller of its two tolerances; whole audits with it report a violation by a private mechanism with probability at most a constant times trials times the failure probability.", "quantifier": "all mechanisms, numbers of samples, kernels and bandwidths, failure probabilities, adaptive dataset generators and numbers of trials", "why_tests_cant": "a probability over all samples, with a tolerance that depends on the sample variance, for every private mechanism", "anchors": ["python/dp_auditorium/dp_auditorium/testers/mmd_tester.py: MMDPropertyTester", "python/dp_auditorium/dp_auditorium/testers/property_tester_utils.py: split_train_test_samples, validate_approximate_dp_property", "python/dp_auditorium/dp_auditorium/privacy_test_runner.py: PrivacyTestRunner.test_privacy"]}
{"id": "C74", "title": "The mean mechanism is differentially private, up to noisy counts that are not positive", "statement": "MeanMechanism returns for every sample the mean of the clipped values plus noise scaled to epsilon, delta and the count. With exact counts it is (epsilon, delta)-differentially private if a record is replaced, but for no epsilon if a record is added; with noisy counts ('private_mean') it is (epsilon, delta)-differentially private if a record is added or replaced, except for the probability that the noisy count is not positive. An epsilon that is not positive raises; an empty dataset with an exact count gives NaN; unknown configuration names raise.", "quantifier": "all datasets, bounds on the values, epsilons, deltas, noise values, and pairs of datasets that differ in one record", "why_tests_cant": "privacy is a property of the distribution of the output for every pair of datasets and event", "anchors": ["python/dp_auditorium/dp_auditorium/mechanisms/mean.py: MeanMechanism", "python/dp_auditorium/dp_auditorium/mechanisms/mechanisms_utils.py: default_mean_mechanism_config_generator", "python/dp_auditorium/dp_auditorium/configs/mechanism_config.py: MeanMechanismConfig"]}
{"id": "C75", "title": "The budget of a gradient step is too small by a factor of 4 if a record is replaced", "statement": "get_wrong_one_step_gd_budget returns a Renyi budget which, times 4, bounds the Renyi divergence of a step of noisy gradient descent with clipped gradients if a record is replaced, and which itself is a bound if a record is left out; for small noise it is not a bound if a record is replaced. A zero noise multiplier raises.", "quantifier": "all noise multipliers, clipping norms, orders above 1, and pairs of clipped sums", "why_tests_cant": "a bound on a divergence for every pair of sums and every partition of the outputs", "anchors": ["python/dp_auditorium/dp_auditorium/mechanisms/mechanisms_utils.py: get_wrong_one_step_gd_budget"]}
{"id": "C76", "title": "Dataset generators follow the protocol of the optimiser and return neighbouring datasets of its trials", "statement": "A Vizier dataset generator declares one parameter per value with the configured bounds. In every history of calls that return, each result that is given and not zero completes the trial of the call before and asks for a new one; otherwise the trial is used again; and the datasets of each call are the values of its trial, in the order of the parameters and within the configured bounds, in one dataset without the last record (scalars), the last example (classification) or the last privacy id (matrices for PipelineDP). With an optimiser that answers, every call returns. The aggregation mechanism returns one run of the engine with the tested budget per sample, and the datasets made for it differ in the data of one of its users. PipelineDP reads the rows of the generated matrix as partitions, its columns as users and the parameters as values, in their order.", "quantifier": "all configurations, optimisers (any state, any suggestion, any failure), histories of calls and results", "why_tests_cant": "histories of calls are unbounded and the optimiser may suggest any values in any order; the tests use a fixed fake trial", "anchors": ["python/dp_auditorium/dp_auditorium/generators/vizier_dataset_generator.py: VizierDatasetGenerator, VizierScalarDataAddRemoveGenerator", "python/dp_auditorium/dp_auditorium/generators/classification_dataset_generator.py: ClassificationDatasetGenerator", "python/dp_auditorium/dp_auditorium/generators/pipeline_dp_vizier_dataset_generator.py: PipelineDpDatasetGenerator", "python/dp_auditorium/dp_auditorium/mechanisms/pipeline_dp/aggregation.py: AggregationMechanism", "python/dp_auditorium/dp_auditorium/configs/dataset_generator_config.py"]}
{"id": "C77", "title": "Clustering results label every point with its closest center, and the metrics count what they say", "statement": "A ClusteringResult computed from centers labels every data point with the first of its closest centers and its loss is the smallest sum of squared distances over all assignments; given labels are accepted exactly if there is one per point and each is the index of a center. For true labels 0, 1, ... get_clustering_metrics returns the accuracy of the best naming of clusters by true labels, the numbers of pairs of points with equal and with different true labels, and how many of them are in different and in the same cluster. private_lsh_clustering returns a result only after its noise passed the accounting check, and labels the original data.", "quantifier": "all data, centers, labels, numbers of clusters and points, k-means implementations and noise values", "why_tests_cant": "all data sets and labelings; optimality over exponentially many assignments", "anchors": ["learning/clustering/clustering_algorithm.py: ClusteringResult, ClusteringMetrics, private_lsh_clustering"]}
{"id": "C78", "title": "Privacy loss distributions constructed on every discretization interval", "statement": "Whatever the value discretization interval, a pessimistic distribution constructed for Laplace, Gaussian, discrete Laplace or discrete Gaussian noise is an upper bound for every query of the given sensitivity and sampling, up to an error of about 2e-9 |log(1-q)|, and of half an interval more for the privacy buckets of Laplace noise; integer noise in privacy buckets has no error. For some valid intervals, one of whose multiples is within a relative 1e-9 of the limit log(1-q) of the privacy loss, the default construction raises ValueError, an optimistic distribution reports a delta above 1, and the privacy buckets of Laplace noise have a negative probability, so that their error is attained.", "quantifier": "all discretization intervals, sampling probabilities, noise parameters, sensitivities, queries and observations", "why_tests_cant": "a bound on a divergence for every interval; the bad intervals are a set of tiny measure", "anchors": ["python/dp_accounting/dp_accounting/pld/privacy_loss_distribution.py: from_laplace_mechanism, from_gaussian_mechanism, from_discrete_laplace_mechanism, from_discrete_gaussian_mechanism, _create_pld_pmf_from_additive_noise", "python/dp_accounting/dp_accounting/pld/privacy_loss_mechanism.py: AdditiveNoisePrivacyLoss.inverse_privacy_loss, AdditiveNoisePrivacyLoss.get_delta_for_epsilon"]}
{"id": "C79", "title": "Constructed privacy loss distributions are accurate", "statement": "A pessimistic distribution constructed by connect-the-dots for Laplace, discrete Laplace or discrete Gaussian noise reports, at every multiple of the value discretization interval, exactly the delta of the worst query of the given sensitivity and sampling, and at every other epsilon at most exp(interval)-1 more. One constructed with privacy buckets reports at most the delta of the worst query one interval to the left, hence at most exp(interval)-1 too much. For Gaussian noise the truncated mass is added: half of exp(log_mass_truncation_bound) for connect-the-dots and exp(log_mass_truncation_bound) for privacy buckets. Hence get_epsilon_for_delta(delta) is at most one interval above any epsilon for which every query of the given sensitivity and sampling is (epsilon, d)-differentially private with d < delta (for Gaussian noise, d plus the truncated mass).", "quantifier": "all noise parameters, sensitivities, sampling probabilities, intervals none of whose multiples is next to log(1-q), and all epsilons", "why_tests_cant": "the worst query is a supremum over all queries and observations, for every epsilon and every interval", "anchors": ["python/dp_accounting/dp_accounting/pld/privacy_loss_distribution.py: from_laplace_mechanism, from_gaussian_mechanism, from_discrete_laplace_mechanism, from_discrete_gaussian_mechanism, _create_pld_pmf_from_additive_noise", "python/dp_accounting/dp_accounting/pld/privacy_loss_mechanism.py: connect_dots_bounds, privacy_loss_tail", "python/dp_accounting/dp_accounting/pld/pld_pmf.py: create_pmf_pessimistic_connect_dots", "python/dp_accounting/dp_accounting/pld/privacy_loss_distribution.py: get_epsilon_for_delta"]}
{"id": "C80", "title": "Composed privacy loss distributions are accurate, optimistic ones are lower bounds", "statement": "Composing optimistic distributions, with any tail truncations, gives a distribution whose delta is at every epsilon at most the delta of every interaction of computations that are each at least as bad as reported. Composing pessimistic distributions, each of which exceeds the divergence of its computation by at most a slack after a shift of epsilon, gives one that exceeds the divergence of the whole interaction, shifted by the sum of the shifts, by at most the sum of the slacks and of the truncated tails. Likewise for self_compose(n): n times the shift and the slack, and twice the tail (an optimistic distribution must not be truncated). In particular, n-fold self-composition of what from_two_probability_mass_functions returns reports at most the true delta at n discretization intervals less, plus the truncated masses. The same accounting may start from identity(). The epsilon reported for a delta that leaves room for the slacks is finite, and exceeds every epsilon that the interaction satisfies by at most the sum of the shifts (n discretization intervals for n runs of two given distributions). The same holds for n runs of randomized response with adaptively chosen inputs, and for n-fold self-composition of what from_privacy_parameters returns, against n runs of a mechanism that has this guarantee, without any shift if epsilon is a multiple of the discretization interval.", "quantifier": "all distributions of total mass at most one, all computations near them, all adaptive choices of the next computation, all numbers of compositions, tail masses and epsilons", "why_tests_cant": "the claim is about all pairs of computations with arbitrary outcome spaces, all interactive strategies, any number of compositions and every epsilon", "anchors": ["python/dp_accounting/dp_accounting/pld/privacy_loss_distribution.py: compose, self_compose, from_two_probability_mass_functions, get_delta_for_epsilon, get_epsilon_for_delta, identity, from_randomized_response, from_privacy_parameters", "python/dp_accounting/dp_accounting/pld/pld_pmf.py: compose, self_compose, compose_pmfs", "python/dp_accounting/dp_accounting/pld/common.py: convolve_dictionary, self_convolve"]}
{"id": "C81", "title": "Testers refuse exactly the configurations that make no sense", "statement": "A PrivacyProperty can be constructed exactly if one of its three guarantees is given. HockeyStickPropertyTester, MMDPropertyTester and RenyiPropertyTester are constructed, and then hold the configured values, exactly if epsilon is positive, delta is not negative, the Renyi order is above 1 and equal to the order of the tester, the kernel is specified and the parameters of the training (and the output bound of the Renyi tester) are positive; in every other case the constructor raises ValueError.", "quantifier": "all configurations, with any of the fields missing, and all values of the fields", "why_tests_cant": "an unbounded set of configurations, including boundary values and every combination of missing fields", "anchors": ["python/dp_auditorium/dp_auditorium/configs/privacy_property.py: PrivacyProperty", "python/dp_auditorium/dp_auditorium/testers/property_tester_utils.py: validate_training_config, validate_approximate_dp_property, validate_pure_dp_property, validate_renyi_dp_property", "python/dp_auditorium/dp_auditorium/testers/renyi_tester.py: RenyiPropertyTester", "python/dp_auditorium/dp_auditorium/testers/hockey_stick_tester.py: HockeyStickPropertyTester", "python/dp_auditorium/dp_auditorium/testers/mmd_tester.py: MMDPropertyTester"]}
