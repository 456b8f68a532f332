# Formal model of google/differential-privacy (python) in Rocq/Coq 8.16

Sources modelled: `python/dp_accounting/dp_accounting`, `learning/clustering`,
`python/dp_auditorium/dp_auditorium` of the pinned commit in /repo.
In this file `A/` abbreviates `python/dp_accounting/dp_accounting/`.

## Conventions

* Models are shallow Gallina functions that follow the Python functions branch
  by branch.  A raised exception is a value (`Err ...`), never hidden by a default.
* Python floats are idealised as real numbers (Coq's `R`), Python ints as `Z`
  (or `nat` where the code has already checked non-negativity).  Where special
  float values or dynamic number types decide the behaviour (infinite RDP
  orders, NaN ordering, int/float noise multipliers) the model carries an
  explicit type for them.  Floating point rounding is NOT modelled.
* Python dictionaries with integer keys are association lists.
* Mutable objects are state records; a method returns the new state and its result.
* External numerical routines (scipy brentq, FFT convolution, random number
  generators, hash projections) are function arguments of the model; theorems
  quantify over every behaviour of them unless the statement itself names the
  property that is used.

## Specification layer

`Spec*.v` files contain only mathematics a privacy reader knows and mention no
model definition: finite probability distributions, `(eps,delta)`-DP over all
events, hockey-stick divergence, Renyi divergence, adaptive composition.

## File layout (rocq/theories)

* `Base/`-style helper files (`RSum`, ...): sums over lists of reals.
* `Spec*.v`: specifications.
* `Model*.v`: models only, every definition cites the lines it models.
* `Proof*.v`: lemmas.
* `Prop*.v`: property theorems only, each closed by `exact lemma`, followed by
  `Print Assumptions`; with an `Example` showing the hypotheses are satisfiable.

## Plan per property

| id | model | proof idea |
|----|-------|------------|
| C01-C03 | event AST, builder state machine with cache | induction on call history; denotation = list of leaf events with multiplicity |
| C04-C10 | generic accountant (dry run, ledger, real run) instantiated with RDP and PLD `_maybe_compose` | induction on event trees and histories; refutations with concrete witnesses where code violates the claim |
| C11 | int/float tagged numbers, `_effective_gaussian_noise_multiplier` | induction on trees; refutation for ints |
| C12-C15 | dense/sparse pmf queries and truncation | list induction, loop invariants |
| C16-C18, C20 | convolution, compose, self_compose, composed delta | sums as integrals of test functions; adaptive composition by the homogeneous form of the hockey stick |
| C19 | Chernoff bounds | moment generating function of n-fold convolution |
| C21 | from_two_probability_mass_functions | per-outcome rounding inequality |
| C22-C23 | connect the dots | telescoping sums, convexity |
| C24-C25 | randomized response, (eps,delta) pair | explicit pmfs; extreme-point argument via hockey-stick at eps0 |
| C26-C28 | privacy loss functions, CDFs | monotonicity, case analysis; events = finite unions of intervals |
| C29-C30 | advanced composition | binomial sums |
| C31-C35 | searches with fuel / oracle | loop invariants; termination by halving |
| C36-C39 | RDP conversions, composition | Jensen/weighted AM-GM on finite distributions |
| C40-C41 | RDP formulas | algebra |
| C42 | tree depth | dyadic intervals |
| C43-C44 | log-space helpers, forward differences | extended reals; induction |
| C45 | special float values | refutation with witness |
| C46 | binary search | invariant |
| C47-C48 | conversions | induction |
| C49-C51 | LSH tree, clipping, calculator | invariant over levels |
| C52-C54 | SVT loop, runner loop, histogram | loop invariants |
| C55 | create_from_cdf | telescoping of the buckets |
| C56 | the constructors for noise mechanisms | the shape of the privacy loss gives the divergence at every grid point; connect-the-dots and privacy buckets bound it |
| C57 | dictionary convolutions | weights of sets of keys |
| C58 | PLDAccountant with the real constructors, mixtures of Gaussians included | C56 + C16/C18 + induction over histories; with errors: they add up under adaptive composition |
| C59 | RdpAccountant on the computations its events describe | tangent bounds for cells of continuous noise, data processing, symmetric refinements for the reverse direction of sampling, C39 |
| C60-C61 | histogram tester and test runner on a source of randomness | Hoeffding/McDiarmid by induction over the samples, union bound over trials |
| C62 | RDP of repeated selection | probability generating functions of the numbers of runs, telescoping over the ranks, the derivative bound of arXiv 2110.03620 per outcome, monotonicity of the Renyi divergence in the order |
| C63 | default truncation of the discrete Gaussian | telescoping bound of the tail sums by the decrement of the weights, a lower bound of the inner mass, and removing a part of mass 1e-30 from a pair of distributions |
| C64 | mixture of Gaussians | the whole class; likelihood ratio as a sum of exponentials, slope bounds for the inverse, cells for the divergence, domination of shifts by convexity, fuel monad for termination; a three-component counterexample to the search bounds |
| C65 | privacy of the sparse vector mechanisms | probability of a row of reports = integral over the noisy threshold of the product of the chances of the reports; pointwise comparison after shifting the threshold by the sensitivity; tightness by concentrating the threshold with many queries; SVT3: the probability that the last query is the first above, with a value of at most 0, grows by e^(1/scale) per query below |
| C66 | noisy max | first argmax by induction; the winner's probability is an explicit integral (antiderivative); ratio of exponential weights |
| C67 | sampling without replacement | pairing of the samples with and without the record, Jensen, binomial expansion of the moment, central moments of Gaussian cells as forward differences, log-convexity between integer orders |
| C68 | the series of `_compute_log_a_frac` | binomial partial sums with a real exponent bound the power, hinges of a convex function against the Gaussian trade-off curve, glued antiderivatives for the two halves of the integral, invariant of the loop |
| C69 | RdpAccountant with that series | C68, additivity of the state, C59's curves for the other events |
| C70 | HockeyStickPropertyTester: construction, splitting, training as an arbitrary function, accuracy, rounding, threshold | Chernoff bound for the sum of two independent samples of bounded variables, conditioning on the training half, the guarantee as a bound on expectations |
| C71 | RenyiPropertyTester: construction, splitting, network bounded by C tanh, estimate and its error | variational formula by Hoelder, Bernstein bounds for the two exponential means, pure implies Renyi |
| C72 | test_privacy with these testers on a tape of independent draws | induction over trials, conditioning on the state before each trial, C70 and C71 |
| C73 | MMDPropertyTester: construction, kernels, pairing of the halves, tolerances, bound on delta | total variation of a private mechanism, Hoeffding and an empirical Bernstein bound (upper tail of the mean, lower tail of the centred squares) for independent quadruples |
| C74 | MeanMechanism and its standard configurations; the distribution of the output is specified as an integral over the noise of the count | output formula by computation; privacy given the count, integrated over the count (monotone comparison of improper integrals); existence of the distribution; witnesses for the failures |
| C75 | get_wrong_one_step_gd_budget | Renyi moment of two normal distributions on cells; witness from the normal tail |
| C76 | dataset generators, aggregation mechanism | state of the generator and an arbitrary optimiser; induction on histories of calls against a protocol; parameter names are parsed back; false parts refuted |
| C77 | ClusteringResult, ClusteringMetrics, private_lsh_clustering as a whole | argmin invariants; histogram bins are label equality; sums of squares over cells = points + 2 pairs, by induction |
| C78 | the constructors of C56 without the grid condition | near the limit the computed delta is off by a bounded error, which connect-the-dots keeps; privacy buckets for integer noise never invert the loss, and for continuous noise the loop is followed past the infinite inverse; the witnesses follow the loop to the grid point next to the limit |
| C79 | the constructors of C56, against the worst query | connect-the-dots reproduces the divergence at its grid points and the truncated part contributes nothing there; privacy buckets are followed in lockstep rounded up and rounded down, which shifts the divergence by at most one interval |
| C80 | compose, self_compose and from_two_probability_mass_functions, randomised response and privacy parameters of C15-C18, C21, C24 and C25, against lower bounds of the divergence | the curve of a convolution is written as sums over the curves of its parts; mass that truncation dropped is first put back at a loss so low that it does not matter; induction over the interaction |
| C81 | the constructors of the three trained or kernel testers and of PrivacyProperty | case analysis; the condition under which each raises is compared with a list of requirements stated separately |

## Modelled and not modelled

Modelled (each definition cites its lines):

| source | model file | not modelled in it |
|--------|-----------|--------------------|
| `A/dp_event.py`, `A/dp_event_builder.py` | TypesEvent, ModelBuilder, ModelNamed | attrs machinery beyond equality; `bytes` names; escapes in printed strings |
| `A/privacy_accountant.py` | ModelAccountant | thread safety (there is none in the code) |
| `A/rdp/rdp_privacy_accountant.py` | ModelRdp, ModelFrac, ModelAccountant | warnings and logging; ModelRdp takes `_compute_log_a_frac` as the function argument `frac`, ModelFrac models it (scipy's log_ndtr is the logarithm of the normal distribution function) |
| `A/pld/pld_privacy_accountant.py` | ModelAccountant, ModelAccMix | none (in ModelAccountant the mixture construction is a function argument, in ModelAccMix it is that of ModelMixture) |
| `A/pld/common.py` | ModelCommon, ModelLog, ModelSearch | - |
| `A/pld/pld_pmf.py` | ModelPmf, ModelMake | - |
| `A/pld/privacy_loss_distribution.py` | ModelPld, ModelMake, ModelMech, ModelMixture | - |
| `A/pld/privacy_loss_mechanism.py` | ModelMech, ModelMixture | numpy's integer arrays (see finding 37) |
| `A/pld/accountant.py` | ModelSmallest, ModelNoise | - |
| `A/mechanism_calibration.py` | ModelSearch | scipy's `brentq` (function argument: any behaviour) |
| `learning/clustering` | ModelCluster, ModelCalculator, ModelResult | scikit-learn's KMeans and numpy's random numbers (function arguments); the demo |
| `dp_auditorium/privacy_test_runner.py`, `testers/histogram_tester.py` | ModelAudit | protobuf configuration objects; post-processing functions (function arguments) |
| `dp_auditorium/testers/{divergence_tester,hockey_stick_tester,renyi_tester,mmd_tester,property_tester_utils}.py`, `configs/{privacy_property,property_tester_config}.py` | TypesTesters, ModelTesters | Keras training and evaluation (an arbitrary function from the training samples and a state to a real function); learning rates, epochs and batches beyond their validation |
| `dp_auditorium/mechanisms/sparse_vector_technique.py` | ModelSvt | numpy's random numbers (function arguments) |
| `dp_auditorium/mechanisms/noisy_max.py` | ModelNoisyMax | numpy's random numbers (function arguments) |
| `dp_auditorium/mechanisms/{mean,mechanisms_utils}.py`, `configs/mechanism_config.py` (MeanMechanismConfig) | TypesMean, ModelMean | numpy's random numbers (function arguments) |
| `dp_auditorium/generators/*.py`, `mechanisms/pipeline_dp/aggregation.py`, `configs/dataset_generator_config.py` | TypesGen, ModelGen | Vizier and PipelineDP's engine (function arguments: any behaviour); study names, owners and search algorithms; numpy's float32 and int32 arrays are reals |

Idealisations common to all of them: floats are reals (no rounding, no overflow), so theorems are
about exact arithmetic; scipy's distribution functions (`norm.cdf`, `laplace.cdf`, ...) and FFT
convolution are exact; random number generators are functions the theorems quantify over; Python
`while` loops have fuel and termination is a separate theorem; NaN attributes of events are not
represented except where the definitions say so.

## Trusted base

* The kernel of Coq 8.16.1 (also run through `coqchk` by the gate), and the reading of the Python
  code that is written down in the `Model*.v` files.
* No axioms are declared in this development.  `Print Assumptions` follows every property theorem.
  What it prints is one of two things:
  * `Closed under the global context` (theorems about the builder, ledgers, named tuples, the test
    runner, ...), or
  * a subset of the axioms of Coq's standard library of reals and functions:
    `ClassicalDedekindReals.sig_forall_dec`, `ClassicalDedekindReals.sig_not_dec`,
    `FunctionalExtensionality.functional_extensionality_dep`, `Classical_Prop.classic`.
* Coquelicot is used in three files (`ProofNormal.v`, existence of the normal distribution function;
  `ProofGdpConv.v` and `ProofGdp.v`, convolution of normal distributions) and brings no further axioms.

The table at the end lists, for each theorem, which of the two it is.

## Findings

Every `_refuted` theorem is a concrete input on which the code violates the natural statement of a
property; others were noticed while modelling.

1. `PLDAccountant` ignores the count for `RandomizedResponseDpEvent`, so repeated randomised response is under-reported (C10); a `noise_parameter` of 1 raises `ValueError` after the ledger was updated.
2. Tail truncation of a dense pmf can raise `IndexError` (C15_total_refuted); two pmfs with disjoint supports give an empty dictionary; dense self-composition with infinity mass of 1 raises `ValueError`; all-zero probabilities raise `OverflowError`.
3. `_get_epsilon_for_delta` is not the smallest value when the pmf contains zero probabilities (C14_smallest_refuted).
4. `RepeatAndSelectDpEvent`: an exception while composing the inner event loses the accumulated RDP (C07, C09).
5. An exception inside `_maybe_compose` leaves the ledger updated and the accountant partly composed; `supports` may be True although `compose` raises; nested non-positive counts are not validated.
6. The effective noise multiplier of the RDP accountant treats ints and floats differently; an empty composition or a zero multiplier raises `ZeroDivisionError` even in a dry run; negative counts give complex numbers (C11).
7. `validate_composable` rejects sparse against dense pmfs.
8. The numerical cutoffs of the mixture of Gaussians are optimistic (see 36).
9. `epsilon = 0` leads to division by zero in several constructors; RDP order 1 with subsampling gives NaN.
10. `inverse_monotone_function`: the guess and the discrete mode can return non-optimal values (C31_guess_refuted, C31_discrete_refuted); endless loops for a guess not above 0 or a lower end of minus infinity; `calibrate_dp_mechanism` documents another default tolerance than it uses; reversed brackets are accepted.
11. `compute_epsilon` with an infinite order can report 0 (C45_infinite_order_refuted); empty lists with delta 0 report 0.
12. The `isclose` cutoffs near the logarithm of one minus the sampling probability make the inverse and the divergence wrong on a small interval (C26_near_refuted, C27_near_refuted); hence the grid condition in C56 and C58; what it excludes is in 48.
13. The event builder merges `GaussianDpEvent(1)` with `GaussianDpEvent(1.0)`.
14. The vectorised divergence reports wrong values for repeated infinite epsilons (C13_repeated_infinity_refuted).
15. Optimistic estimates of a composition are not lower bounds after truncation (C18_optimistic_refuted).
16. Connect-the-dots assumes convexity that not every input has (C22_not_convex_refuted).
17. Repeat-and-select with infinite mean and shape gives NaN.
18. Tree aggregation at infinite order and depth 0 gives NaN.
19. `common._log_add` of two minus infinities gives NaN (C43_common_log_add_refuted).
20. The infinity mass of a dense self-composition can exceed 1 by the truncated tail.
21. `get_smallest_epsilon_from_advanced_composition` searches in `[eps/n, eps]`; delta is not validated up front; `n = 0` raises `ZeroDivisionError`.
22. Laplace `from_privacy_guarantee` with epsilon 0 gives an infinite parameter.
23. The smallest (discrete) Laplace noise with epsilon 0 raises `ZeroDivisionError`; with delta 0 the search misses because of the 1e-15 tail truncation and falls back to basic composition.
24. `list_to_dictionary` drops positive entries when negative entries make the running sum non-positive (C47_negative_refuted).
25. Named tuples corrupt string attributes (C48_string_refuted); range and named tuple attributes raise `TypeError`; fields called `module_name` or `class_name` raise `ValueError`.
26. The clustering accounts discrete Laplace counts as continuous Laplace noise, which is optimistic (C51_discrete_refuted).
27. `clip_by_radius` raises for empty data (C49_empty_refuted).
28. `default_tree_param` with `k = 0` raises `ZeroDivisionError`; a negative `max_depth` raises `ValueError`.
29. Poisson sampling with probability 0 passes silently even for noise multiplier 0.
30. The sensitivity of the sum query of the sparse vector mechanisms is wrong for add/remove neighbours. With equal bounds it is 0, and the reports give the added record away (C65_added_record_refuted).
31. SVT5 with no queries and a record-revealing query still outputs one comparison (hence `0 < num_queries` in C52).
32. The failure probability of the test runner is per trial; over T adaptive trials the proved bound is T times half of it; values above 4 make the tolerance NaN and never reject; 0 raises `ZeroDivisionError`.
33. The success probability of the truncated negative binomial comes from truncated series (relative error below 1e-89): for a non-geometric shape the bound is proved for means a relative 6e-90 below the declared one. For order 1 the bound is infinite.
34. The search bounds of `MixtureGaussianPrivacyLoss` assume that the inverse of the loss lies between the inverses for the smallest and the largest sensitivity (pld/privacy_loss_mechanism.py 2302-2342). It does not. For one epsilon, `get_delta_for_epsilon` can return at most 0.1 where the divergence is above 0.9 (C64_delta_one_refuted), and `inverse_privacy_loss` can return a point whose loss is 500 too high (C64_inverse_refuted). Lists of epsilons that extend to the other side of 0 are not affected, so the default construction is sound (C64_pessimistic).
35. `from_mixture_gaussian_mechanism(use_connect_dots=False)` is therefore not pessimistic: delta can be wrong by 3/4 (C64_buckets_refuted).
36. The deltas of the mixture class are at most the divergence, never above it, although the comments promise an overestimate: the default construction is pessimistic only up to `mixture_error` (C64_pessimistic).
37. Epsilons within 1e-8 + 1e-5 |log(1-q)| of the limit of the loss raise `ValueError` (maximum of an empty array, C64_near_limit_raises). Integer epsilons make integer arrays (`np.zeros_like`, `np.full_like`), which truncate the results; this is outside the model (its numbers are reals).
38. The docstring of SVT4 promises "a stronger guarantee than the one claimed". The guarantee (1 + 6 max_answered_queries) epsilon / 4 is weaker: SVT4 is not epsilon-differentially private (C65_tight). The classes SVT1 and SVT2 are (C65_private). SVT6, documented as not private, is (1/2 + max_answered_queries) epsilon-differentially private, because this implementation stops after max_answered_queries answers.
39. `_compute_log_a_frac` stops as soon as two consecutive terms are decreasing and e^-30 below the total, which may be before the step that exceeds the order: the terms it leaves out are then positive, so the RDP at that order is (by a relative 2^(floor(a)+2) e^-30 at most, C68) below the true value. If it passes the order, the result is a bound: it ignores the signs of the binomial coefficients, so that later terms only add.
40. The hockey-stick tester truncates the number of samples of the second distribution it uses to an integer but keeps the real ratio in its threshold, so that its failure probability is exceeded: a mechanism that ignores its input is rejected with certainty at failure probability 0.95 and two samples (C70_rounding_refuted). With different numbers of samples of the two distributions the weights are wrong: such a mechanism is rejected with certainty at failure probability 0.05 (C70_unequal_refuted).
41. The Renyi tester does not validate `alpha` for a pure guarantee: with -1 it rejects a mechanism that ignores its input (C71_order_refuted), with 1 it raises `ZeroDivisionError`. The documentation says that `alpha` only matters for a pure guarantee, but construction with a Renyi guarantee of another order raises `ValueError`. The error term omits the factor alpha / (alpha - 1), which is harmless (C71_renyi). `split_train_test_samples` accepts zero samples; the docstring of `reject_property` is inverted; a base model passed to the constructor is modified; a negative bandwidth of the MMD tester is accepted.
42. The MMD tester cannot reject anything when epsilon is at least ln(1 + sqrt 2), about 0.88: its statistic is at most 2 and its threshold is then at least 2 (C73_never_rejects). It takes the better of two confidence bounds without splitting the failure probability. A negative bandwidth is accepted and makes it reject mechanisms that ignore their input (C73_bandwidth_refuted).
43. `MeanMechanism` configured as "private_mean" is not (epsilon, 1/4)-differentially private on small datasets (C74_private_mean_refuted): if the noisy count is negative, `np.maximum(_ZERO_TOLERANCE, scale)` makes the noise 10^-12 and the sum is released almost exactly. The probability is exp(-n epsilon/2)/2 for n records, which is also a bound on the excess delta (C74_noisy_count_partial). "non_private_mean_v1" is private if a record is replaced, despite its name, but not if one is added (C74_added_refuted). The noise for delta > 0 is the textbook Gaussian mechanism, which does not give the guarantee for large epsilon (C74_gaussian_refuted). An empty dataset gives NaN, not an error (C74_empty).
44. `PipelineDpDatasetGenerator` emits records (privacy id, partition, value), and its own docstring and `AggregationMechanism` read them as (partition, privacy id, value). With two partitions or more the datasets therefore never differ in one user of the audited mechanism, so a correct mechanism may be reported as not private (C76_users, C76_neighbours_refuted).
45. `VizierDatasetGenerator.__call__` tests `if last_trial_result:`, so a result of exactly 0.0 does not complete the trial and the same datasets are tested again (C76_every_result_refuted). If the optimiser raises when asked for a suggestion, the next call completes the same trial a second time with another result (C76_completed_once_refuted).
46. `int(min_value)` rounds towards zero, so that integer parameters may be below a positive minimum (C76_int_range_refuted). The label parameters range from 0 to `num_classes` inclusive, one label too many (C76_labels_refuted).
47. `ClusteringResult.cross_label_histogram` starts its bins at -0.5, so points with a negative true label (for example -1 for noise) are dropped from all the metrics without an error (C77_negative_refuted); if all labels are negative, `np.max` of an empty axis raises (C77_all_negative_refuted).
48. If a multiple of the discretization interval is within a relative 1e-9 of log(1-q), where `inverse_privacy_loss` returns an infinite value, then with little noise (sensitivity 80, scale 1, q = 1/2 and an interval of about 7e-5) the default connect-the-dots construction raises `ValueError` because the deltas increase (C78_raises_refuted), the optimistic distribution counts the last interval twice and reports a delta of 1.2 (C78_mass_refuted), and the privacy buckets for adding a record have a negative probability (C78_negative_refuted). A pessimistic distribution that is constructed has an error of at most about 2e-9 |log(1-q)|, plus half an interval for privacy buckets with Laplace noise (C78_within), where the half interval is attained: the reported delta of that direction is too small by (1-exp(-interval))/2 (C78_buckets_tight).
49. `PLDAccountant` accepts `MixtureOfGaussiansDpEvent` under every neighbouring relation, although it refuses Poisson sampled events, whose pairs of distributions are of the same kind, under REPLACE_ONE. The event names a pair of distributions; whether it describes the neighbours of the chosen relation is left to the user.

## Assumptions of each theorem

**Closed under the global context**:
C01_good_counts_meaning, C43_common_log_add_refuted, C48_distinct, C48_events, C48_plain, C48_refuses,
C48_string_refuted, C48_user_events_partial, C53_runner, C76_aggregation, C81_property.

**`ClassicalDedekindReals.sig_forall_dec`**:
C47_to_list, C74_names, C76_class_range_partial, C76_neighbours_refuted, C76_read, C76_users.

**`ClassicalDedekindReals.sig_forall_dec`, `FunctionalExtensionality.functional_extensionality_dep`**:
C01_builder_accepts, C01_builder_faithful, C02_builder_cache_invisible, C02_builder_canonical,
C02_builder_noop, C03_builder_rejected_call, C15_total_refuted, C17_associative, C17_commutative,
C17_componentwise, C17_convolution, C17_identity, C17_representation, C17_total, C31_discrete_refuted,
C31_guess_refuted, C31_inverse_decreasing_partial, C31_inverse_increasing_partial, C31_inverse_terminates,
C32_bisect_returns, C32_bisect_same_sign, C32_bisect_sound, C33_bracket_search, C33_evaluations,
C34_calibrated_epsilon, C34_nearest, C34_nearly_optimal, C34_returns, C47_negative_refuted, C47_round_trip,
C47_round_trip_list, C47_truncation, C51_event, C51_nonprivate, C52_cutoff, C52_sequential, C55_terminates,
C57_convolve, C65_added_record_refuted, C65_events, C65_svt3_events, C66_winner, C76_class_returns,
C76_classification, C76_completed_once_refuted, C76_constructor, C76_every_result_refuted,
C76_int_range_refuted, C76_labels_refuted, C76_pipeline_partial, C76_pipeline_returns, C76_raises,
C76_range_partial, C76_returns, C76_scalar, C77_all_negative_refuted, C77_given, C77_histogram, C77_labels,
C77_metrics, C77_negative_refuted, C77_one, C77_total, C81_hockey, C81_mmd, C81_renyi.

**`ClassicalDedekindReals.sig_forall_dec`, `ClassicalDedekindReals.sig_not_dec`, `FunctionalExtensionality.functional_extensionality_dep`**:
C13_repeated_infinity_refuted, C21_total, C25_total, C49_attained, C49_empty_refuted, C49_influence,
C49_neighbours_partial, C49_returns, C50_clipped, C50_empty, C50_rows, C50_sensitivity, C50_summed, C51_tree.

**`ClassicalDedekindReals.sig_forall_dec`, `ClassicalDedekindReals.sig_not_dec`, `Classical_Prop.classic`, `FunctionalExtensionality.functional_extensionality_dep`**:
C04_pld_unsupported, C04_rdp_unsupported, C05_pld_supports, C05_rdp_supports, C06_exception_refuted,
C06_integers_refuted, C06_ledger_replay_partial, C07_never_forgets_partial, C07_repeat_refuted, C08_additive,
C08_order_free, C09_pld_never_forgotten, C09_rdp_never_forgotten_partial, C10_randomized_response_refuted,
C10_sound_partial, C11_effective_noise_partial, C11_integers_refuted, C11_other_unsupported,
C12_delta_above_all_losses, C12_delta_convex, C12_delta_is_curve, C12_delta_monotone, C12_delta_range,
C13_vectorised_delta_infinite, C13_vectorised_delta_partial, C14_epsilon_for_delta, C14_smallest_refuted,
C15_truncation, C16_adaptive_accounting, C18_optimistic_refuted, C18_self_compose, C18_self_compose_adaptive,
C18_self_compose_total, C19_self_convolve_bounds, C20_composed_delta, C21_bounds, C21_exact, C21_optimistic,
C21_pessimistic, C22_at_least, C22_connects_dots, C22_dominates, C22_dominates_mechanism,
C22_not_convex_refuted, C22_total, C23_fixed_gap, C24_exact, C24_optimistic, C24_pessimistic, C24_total,
C25_dominates, C25_tight, C26_inverse_defined, C26_inverse_partial, C26_loss, C26_loss_defined, C26_monotone,
C26_near_refuted, C27_divergence_partial, C27_near, C27_near_refuted, C27_neighbours, C28_discrete_laplace,
C28_gaussian, C28_gaussian_returns, C28_laplace, C28_laplace_total, C29_none, C29_optimal, C29_sound,
C30_none, C30_returns, C30_sound, C34_pld_not_nan, C34_pld_private, C34_rdp_not_nan, C34_rdp_private,
C35_discrete_laplace, C35_discrete_laplace_returns, C35_gaussian, C35_gaussian_returns, C35_laplace,
C35_laplace_returns, C35_parameter, C35_subsampled_gaussian, C35_subsampled_gaussian_returns, C36_best_order,
C36_epsilon_range, C36_epsilon_sound, C36_total, C37_best_order, C37_delta_sound, C37_total, C38_delta_mono,
C38_epsilon_mono, C38_epsilon_mono_delta, C38_history_mono, C39_adaptive, C40_exact, C40_total,
C41_binomial_sum, C41_bounds, C41_subsampled_mechanism, C42_depth, C42_refuses, C43_common_log_add_minus_inf,
C43_common_log_add_partial, C43_common_log_sub, C43_common_log_sub_infinite, C43_log_abc,
C43_log_abc_minus_inf, C43_log_abc_plus_inf, C43_log_abc_undefined, C43_log_add, C43_log_sub_sign,
C44_forward_differences, C45_delta_partial, C45_infinite_order_refuted, C46_conservative, C46_mean_accurate,
C46_terminates, C49_likelihood, C51_calibrated, C51_discrete_refuted, C51_multipliers, C51_private,
C51_search_interval, C51_validated, C54_continuous, C54_discrete, C54_no_reject, C54_no_reject_continuous,
C55_optimistic, C55_pessimistic, C56_discrete_gaussian_total, C56_discrete_laplace_total, C56_gaussian_total,
C56_laplace_total, C56_optimistic, C56_pessimistic, C57_self_convolve, C57_self_convolve_returns,
C58_noise_sound_partial, C58_noise_within_partial, C59_end_to_end_partial, C60_continuous, C60_discrete,
C61_continuous, C61_discrete, C62_distributions, C62_order_monotone, C62_selection, C63_every_grid, C63_mass,
C63_untruncated, C64_buckets_refuted, C64_delta, C64_delta_one, C64_delta_one_refuted, C64_inverse,
C64_inverse_refuted, C64_loss, C64_near_limit_raises, C64_pessimistic, C64_returns, C64_tail, C65_private,
C65_svt3_refuted, C65_svt5_refuted, C65_tight, C66_exponential, C66_private, C67_order_one, C67_replace_one,
C68_long, C68_series, C69_end_to_end, C70_exact_partial, C70_hockey_partial, C70_lower_bound,
C70_rounding_refuted, C70_separated, C70_training, C70_unequal_refuted, C71_lower_bound, C71_order_refuted,
C71_renyi, C71_value, C72_hockey, C72_renyi, C73_audit_partial, C73_bandwidth_refuted, C73_decision,
C73_lower_bound_partial, C73_mmd_partial, C73_never_rejects, C74_added_refuted, C74_empty,
C74_exact_count_partial, C74_gaussian_refuted, C74_law, C74_noisy_count_partial, C74_output,
C74_private_mean_refuted, C74_raises, C75_budget, C75_wrong, C77_algorithm, C78_buckets_tight,
C78_gaussian_buckets, C78_integer_buckets, C78_mass_refuted, C78_negative_refuted, C78_raises_refuted,
C78_sound, C78_within, C79_discrete_gaussian, C79_discrete_gaussian_buckets, C79_discrete_gaussian_epsilon,
C79_discrete_laplace, C79_discrete_laplace_buckets, C79_discrete_laplace_epsilon, C79_gaussian,
C79_gaussian_buckets, C79_gaussian_epsilon, C79_laplace, C79_laplace_buckets, C79_laplace_epsilon,
C80_accounting, C80_epsilon, C80_from_identity, C80_optimistic, C80_parameters, C80_parameters_runs,
C80_randomized_response, C80_randomized_response_runs, C80_runs, C80_runs_epsilon, C80_runs_optimistic,
C80_self_compose, C80_two_pmfs.
