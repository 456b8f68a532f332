{
 "claims": [
  {
   "property": "C01",
   "status": "proved",
   "theorems": [
    "C01_builder_faithful",
    "C01_builder_accepts",
    "C01_good_counts_meaning"
   ],
   "note": ""
  },
  {
   "property": "C02",
   "status": "proved",
   "theorems": [
    "C02_builder_canonical",
    "C02_builder_noop",
    "C02_builder_cache_invisible"
   ],
   "note": ""
  },
  {
   "property": "C03",
   "status": "proved",
   "theorems": [
    "C03_builder_rejected_call"
   ],
   "note": ""
  },
  {
   "property": "C04",
   "status": "proved",
   "theorems": [
    "C04_rdp_unsupported",
    "C04_pld_unsupported"
   ],
   "note": ""
  },
  {
   "property": "C05",
   "status": "proved",
   "theorems": [
    "C05_rdp_supports",
    "C05_pld_supports"
   ],
   "note": ""
  },
  {
   "property": "C06",
   "status": "partial",
   "theorems": [
    "C06_ledger_replay_partial",
    "C06_exception_refuted",
    "C06_integers_refuted"
   ],
   "note": "Full statement refuted: C06_exception_refuted (an exception while composing leaves ledger and loss different) and C06_integers_refuted (Gaussian(1) and Gaussian(1.0) are merged in the ledger). Proved: the ledger can be replayed after any history of calls without such an exception and with float noise multipliers."
  },
  {
   "property": "C07",
   "status": "partial",
   "theorems": [
    "C07_never_forgets_partial",
    "C07_repeat_refuted"
   ],
   "note": "Refuted for RepeatAndSelect events (C07_repeat_refuted: an exception inside loses the RDP accumulated before). Proved for all histories and exceptions without RepeatAndSelect."
  },
  {
   "property": "C08",
   "status": "proved",
   "theorems": [
    "C08_additive",
    "C08_order_free"
   ],
   "note": ""
  },
  {
   "property": "C09",
   "status": "partial",
   "theorems": [
    "C09_rdp_never_forgotten_partial",
    "C09_pld_never_forgotten"
   ],
   "note": "Proved for the PLD accountant; for the RDP accountant for histories without RepeatAndSelect events that raise (see C07)."
  },
  {
   "property": "C10",
   "status": "partial",
   "theorems": [
    "C10_sound_partial",
    "C10_randomized_response_refuted"
   ],
   "note": "Refuted for randomized response events, whose count is ignored (C10_randomized_response_refuted). Proved for all other events."
  },
  {
   "property": "C11",
   "status": "partial",
   "theorems": [
    "C11_effective_noise_partial",
    "C11_other_unsupported",
    "C11_integers_refuted"
   ],
   "note": "Refuted for int noise multipliers inside Composed events (C11_integers_refuted). Proved for float noise multipliers."
  },
  {
   "property": "C12",
   "status": "proved",
   "theorems": [
    "C12_delta_is_curve",
    "C12_delta_monotone",
    "C12_delta_convex",
    "C12_delta_range",
    "C12_delta_above_all_losses"
   ],
   "note": ""
  },
  {
   "property": "C13",
   "status": "partial",
   "theorems": [
    "C13_vectorised_delta_partial",
    "C13_vectorised_delta_infinite",
    "C13_repeated_infinity_refuted"
   ],
   "note": "Refuted for a list with infinity more than once (C13_repeated_infinity_refuted). Proved for all sorted lists of finite epsilons, also followed by one infinity."
  },
  {
   "property": "C14",
   "status": "proved",
   "theorems": [
    "C14_epsilon_for_delta",
    "C14_smallest_refuted"
   ],
   "note": "Proved as stated; C14_smallest_refuted shows that the condition on the probabilities is needed."
  },
  {
   "property": "C15",
   "status": "proved",
   "theorems": [
    "C15_truncation",
    "C15_total_refuted"
   ],
   "note": "The statement is proved; in addition C15_total_refuted exhibits an input on which the truncation raises IndexError."
  },
  {
   "property": "C16",
   "status": "proved",
   "theorems": [
    "C16_adaptive_accounting"
   ],
   "note": ""
  },
  {
   "property": "C17",
   "status": "proved",
   "theorems": [
    "C17_convolution",
    "C17_componentwise",
    "C17_commutative",
    "C17_associative",
    "C17_identity",
    "C17_representation",
    "C17_total"
   ],
   "note": ""
  },
  {
   "property": "C18",
   "status": "proved",
   "theorems": [
    "C18_self_compose",
    "C18_self_compose_adaptive",
    "C18_self_compose_total",
    "C18_optimistic_refuted"
   ],
   "note": "Proved for pessimistic estimates, as stated; C18_optimistic_refuted shows that the optimistic estimate need not be a lower bound."
  },
  {
   "property": "C19",
   "status": "proved",
   "theorems": [
    "C19_self_convolve_bounds"
   ],
   "note": ""
  },
  {
   "property": "C20",
   "status": "proved",
   "theorems": [
    "C20_composed_delta"
   ],
   "note": ""
  },
  {
   "property": "C21",
   "status": "proved",
   "theorems": [
    "C21_pessimistic",
    "C21_bounds",
    "C21_optimistic",
    "C21_exact",
    "C21_total"
   ],
   "note": ""
  },
  {
   "property": "C22",
   "status": "proved",
   "theorems": [
    "C22_dominates",
    "C22_dominates_mechanism",
    "C22_at_least",
    "C22_connects_dots",
    "C22_total",
    "C22_not_convex_refuted"
   ],
   "note": "Proved; C22_not_convex_refuted shows that convexity cannot be dropped for the last part."
  },
  {
   "property": "C23",
   "status": "proved",
   "theorems": [
    "C23_fixed_gap"
   ],
   "note": ""
  },
  {
   "property": "C24",
   "status": "proved",
   "theorems": [
    "C24_pessimistic",
    "C24_optimistic",
    "C24_exact",
    "C24_total"
   ],
   "note": ""
  },
  {
   "property": "C25",
   "status": "proved",
   "theorems": [
    "C25_dominates",
    "C25_tight",
    "C25_total"
   ],
   "note": ""
  },
  {
   "property": "C26",
   "status": "partial",
   "theorems": [
    "C26_loss",
    "C26_loss_defined",
    "C26_monotone",
    "C26_inverse_partial",
    "C26_inverse_defined",
    "C26_near_refuted"
   ],
   "note": "Refuted within a relative 1e-9 of the bound of the loss of a subsampled mechanism (C26_near_refuted, math.isclose). Proved everywhere else."
  },
  {
   "property": "C27",
   "status": "partial",
   "theorems": [
    "C27_divergence_partial",
    "C27_near",
    "C27_near_refuted",
    "C27_neighbours"
   ],
   "note": "Refuted within a relative 1e-9 of the bound of the loss (C27_near_refuted). Proved everywhere else, and C27_near bounds the error in this range."
  },
  {
   "property": "C28",
   "status": "proved",
   "theorems": [
    "C28_laplace",
    "C28_laplace_total",
    "C28_discrete_laplace",
    "C28_gaussian",
    "C28_gaussian_returns"
   ],
   "note": ""
  },
  {
   "property": "C29",
   "status": "proved",
   "theorems": [
    "C29_sound",
    "C29_optimal",
    "C29_none"
   ],
   "note": ""
  },
  {
   "property": "C30",
   "status": "proved",
   "theorems": [
    "C30_sound",
    "C30_none",
    "C30_returns"
   ],
   "note": ""
  },
  {
   "property": "C31",
   "status": "partial",
   "theorems": [
    "C31_inverse_decreasing_partial",
    "C31_inverse_increasing_partial",
    "C31_inverse_terminates",
    "C31_discrete_refuted",
    "C31_guess_refuted"
   ],
   "note": "Refuted: discrete search misses the lower end of the range (C31_discrete_refuted), and a guess below the range gives a value outside of it (C31_guess_refuted). Proved otherwise."
  },
  {
   "property": "C32",
   "status": "proved",
   "theorems": [
    "C32_bisect_sound",
    "C32_bisect_returns",
    "C32_bisect_same_sign"
   ],
   "note": ""
  },
  {
   "property": "C33",
   "status": "proved",
   "theorems": [
    "C33_bracket_search",
    "C33_evaluations"
   ],
   "note": ""
  },
  {
   "property": "C34",
   "status": "proved",
   "theorems": [
    "C34_calibrated_epsilon",
    "C34_rdp_not_nan",
    "C34_pld_not_nan",
    "C34_rdp_private",
    "C34_pld_private",
    "C34_nearly_optimal",
    "C34_returns",
    "C34_nearest"
   ],
   "note": ""
  },
  {
   "property": "C35",
   "status": "proved",
   "theorems": [
    "C35_parameter",
    "C35_laplace",
    "C35_laplace_returns",
    "C35_discrete_laplace",
    "C35_discrete_laplace_returns",
    "C35_gaussian",
    "C35_gaussian_returns",
    "C35_subsampled_gaussian",
    "C35_subsampled_gaussian_returns"
   ],
   "note": ""
  },
  {
   "property": "C36",
   "status": "proved",
   "theorems": [
    "C36_epsilon_sound",
    "C36_epsilon_range",
    "C36_total",
    "C36_best_order"
   ],
   "note": ""
  },
  {
   "property": "C37",
   "status": "proved",
   "theorems": [
    "C37_delta_sound",
    "C37_total",
    "C37_best_order"
   ],
   "note": ""
  },
  {
   "property": "C38",
   "status": "proved",
   "theorems": [
    "C38_history_mono",
    "C38_epsilon_mono",
    "C38_epsilon_mono_delta",
    "C38_delta_mono"
   ],
   "note": ""
  },
  {
   "property": "C39",
   "status": "proved",
   "theorems": [
    "C39_adaptive"
   ],
   "note": ""
  },
  {
   "property": "C40",
   "status": "proved",
   "theorems": [
    "C40_exact",
    "C40_total"
   ],
   "note": ""
  },
  {
   "property": "C41",
   "status": "proved",
   "theorems": [
    "C41_binomial_sum",
    "C41_bounds",
    "C41_subsampled_mechanism"
   ],
   "note": ""
  },
  {
   "property": "C42",
   "status": "proved",
   "theorems": [
    "C42_depth",
    "C42_refuses"
   ],
   "note": ""
  },
  {
   "property": "C43",
   "status": "partial",
   "theorems": [
    "C43_log_add",
    "C43_log_sub_sign",
    "C43_common_log_add_partial",
    "C43_common_log_add_minus_inf",
    "C43_common_log_add_refuted",
    "C43_common_log_sub",
    "C43_common_log_sub_infinite",
    "C43_log_abc",
    "C43_log_abc_undefined",
    "C43_log_abc_plus_inf",
    "C43_log_abc_minus_inf"
   ],
   "note": "pld/common.py _log_add of two -inf is NaN (C43_common_log_add_refuted); everything else is proved."
  },
  {
   "property": "C44",
   "status": "proved",
   "theorems": [
    "C44_forward_differences"
   ],
   "note": ""
  },
  {
   "property": "C45",
   "status": "partial",
   "theorems": [
    "C45_infinite_order_refuted",
    "C45_delta_partial"
   ],
   "note": "Refuted for epsilon (C45_infinite_order_refuted: an infinite order reports epsilon 0). Proved for delta."
  },
  {
   "property": "C46",
   "status": "proved",
   "theorems": [
    "C46_mean_accurate",
    "C46_conservative",
    "C46_terminates"
   ],
   "note": ""
  },
  {
   "property": "C47",
   "status": "proved",
   "theorems": [
    "C47_to_list",
    "C47_round_trip",
    "C47_round_trip_list",
    "C47_truncation",
    "C47_negative_refuted"
   ],
   "note": "Proved for probabilities; C47_negative_refuted: with negative entries positive ones can be dropped."
  },
  {
   "property": "C48",
   "status": "partial",
   "theorems": [
    "C48_events",
    "C48_plain",
    "C48_distinct",
    "C48_user_events_partial",
    "C48_refuses",
    "C48_string_refuted"
   ],
   "note": "Refuted for user-defined events with string attributes (C48_string_refuted). Proved for all events of the library and for user-defined events without such attributes."
  },
  {
   "property": "C49",
   "status": "partial",
   "theorems": [
    "C49_influence",
    "C49_attained",
    "C49_neighbours_partial",
    "C49_likelihood",
    "C49_returns",
    "C49_empty_refuted"
   ],
   "note": "Refuted for the removal of the only row, where the clustering raises (C49_empty_refuted). Proved for all other neighbours; the number of influenced releases is proved without exception."
  },
  {
   "property": "C50",
   "status": "proved",
   "theorems": [
    "C50_clipped",
    "C50_rows",
    "C50_summed",
    "C50_sensitivity",
    "C50_empty"
   ],
   "note": ""
  },
  {
   "property": "C51",
   "status": "proved",
   "theorems": [
    "C51_event",
    "C51_nonprivate",
    "C51_validated",
    "C51_calibrated",
    "C51_private",
    "C51_multipliers",
    "C51_discrete_refuted",
    "C51_tree",
    "C51_search_interval"
   ],
   "note": "Proved as stated; C51_discrete_refuted: the counts get discrete Laplace noise but are accounted as continuous Laplace noise, which is optimistic."
  },
  {
   "property": "C52",
   "status": "proved",
   "theorems": [
    "C52_cutoff",
    "C52_sequential"
   ],
   "note": ""
  },
  {
   "property": "C53",
   "status": "proved",
   "theorems": [
    "C53_runner"
   ],
   "note": ""
  },
  {
   "property": "C54",
   "status": "proved",
   "theorems": [
    "C54_discrete",
    "C54_continuous",
    "C54_no_reject",
    "C54_no_reject_continuous"
   ],
   "note": ""
  },
  {
   "property": "C55",
   "status": "proved",
   "theorems": [
    "C55_pessimistic",
    "C55_optimistic",
    "C55_terminates"
   ],
   "note": ""
  },
  {
   "property": "C56",
   "status": "proved",
   "theorems": [
    "C56_pessimistic",
    "C56_optimistic",
    "C56_laplace_total",
    "C56_gaussian_total",
    "C56_discrete_laplace_total",
    "C56_discrete_gaussian_total"
   ],
   "note": ""
  },
  {
   "property": "C57",
   "status": "proved",
   "theorems": [
    "C57_convolve",
    "C57_self_convolve",
    "C57_self_convolve_returns"
   ],
   "note": ""
  },
  {
   "property": "C58",
   "status": "partial",
   "theorems": [
    "C58_noise_sound_partial",
    "C58_noise_within_partial"
   ],
   "note": "Partial: randomised response once per call (more is false, C10_randomized_response_refuted). C58_noise_within_partial covers mixtures of Gaussians and every grid up to a stated error per run; it needs at most 10^20 runs of sampled Gaussian noise or mixtures per call, probabilities that add up to 1 and, with several sensitivities, a probability of at least 2e-8 of a positive one. C58_noise_sound_partial has no error but no mixtures and the grid condition of C56."
  },
  {
   "property": "C59",
   "status": "partial",
   "theorems": [
    "C59_end_to_end_partial"
   ],
   "note": "Partial: proved for NonPrivate, Gaussian, Laplace, PoissonSampled and SampledWithoutReplacement trees of Gaussian events, RandomizedResponse, SingleEpochTreeAggregation and RepeatAndSelect events (nested to any depth) at all orders (no order 1 for negative binomial selection). Missing: at fractional orders of PoissonSampled events the numerical series _compute_log_a_frac is assumed to bound the log moment (frac_sound); C68 proves that it does when it passes the order and up to 2^(floor a + 2) e^-30 otherwise, and C69 the end-to-end statement with that error instead of the assumption."
  },
  {
   "property": "C60",
   "status": "proved",
   "theorems": [
    "C60_discrete",
    "C60_continuous"
   ],
   "note": ""
  },
  {
   "property": "C61",
   "status": "proved",
   "theorems": [
    "C61_discrete",
    "C61_continuous"
   ],
   "note": ""
  },
  {
   "property": "C62",
   "status": "proved",
   "theorems": [
    "C62_selection",
    "C62_distributions",
    "C62_order_monotone"
   ],
   "note": ""
  },
  {
   "property": "C63",
   "status": "proved",
   "theorems": [
    "C63_mass",
    "C63_untruncated",
    "C63_every_grid"
   ],
   "note": ""
  },
  {
   "property": "C64",
   "status": "proved",
   "theorems": [
    "C64_loss",
    "C64_delta",
    "C64_delta_one",
    "C64_delta_one_refuted",
    "C64_near_limit_raises",
    "C64_inverse",
    "C64_inverse_refuted",
    "C64_tail",
    "C64_pessimistic",
    "C64_returns",
    "C64_buckets_refuted"
   ],
   "note": "Proved with the conditions of the statement; the four refuted/raises theorems show what happens without them (single epsilons on the near side of 0, inverse_privacy_loss, use_connect_dots=False, epsilons at the limit of the loss). Composition of these distributions with other mechanisms carries the same additive error and is not stated separately."
  },
  {
   "property": "C65",
   "status": "proved",
   "theorems": [
    "C65_events",
    "C65_private",
    "C65_tight",
    "C65_svt5_refuted",
    "C65_added_record_refuted",
    "C65_svt3_events",
    "C65_svt3_refuted"
   ],
   "note": "Proved. The refuted theorems and C65_tight show the limits named in the statement: SVT3 and SVT5 are not private, the sum query's sensitivity does not cover an added record, SVT4 is not epsilon-differentially private."
  },
  {
   "property": "C66",
   "status": "proved",
   "theorems": [
    "C66_winner",
    "C66_exponential",
    "C66_private"
   ],
   "note": ""
  },
  {
   "property": "C67",
   "status": "proved",
   "theorems": [
    "C67_replace_one",
    "C67_order_one"
   ],
   "note": "Proved: every sample size up to the size of the dataset, every order above 1 (order 1 gives NaN in the code), integer and fractional."
  },
  {
   "property": "C68",
   "status": "proved",
   "theorems": [
    "C68_series",
    "C68_long"
   ],
   "note": "Proved in real arithmetic; scipy's gammaln and log_ndtr are exact in the model."
  },
  {
   "property": "C69",
   "status": "proved",
   "theorems": [
    "C69_end_to_end"
   ],
   "note": "Proved for the modelled series, without an assumption on it. Sampled events inside RepeatAndSelectDpEvent are covered by C59 only, under its assumption."
  },
  {
   "property": "C70",
   "status": "partial",
   "theorems": [
    "C70_hockey_partial",
    "C70_exact_partial",
    "C70_lower_bound",
    "C70_separated",
    "C70_training",
    "C70_rounding_refuted",
    "C70_unequal_refuted"
   ],
   "note": "Partial: the claim as stated is refuted (C70_rounding_refuted) because the number of used samples is rounded; proved with the factor exp(4 sqrt(ln(1/failure)/2/m)), m the number of test samples, and exactly when nothing is rounded (C70_exact_partial). C70_unequal_refuted: with different numbers of samples the claim fails altogether."
  },
  {
   "property": "C71",
   "status": "proved",
   "theorems": [
    "C71_renyi",
    "C71_lower_bound",
    "C71_value",
    "C71_order_refuted"
   ],
   "note": "Proved for orders above 1, as stated; C71_order_refuted: the constructor does not check the order of a pure guarantee."
  },
  {
   "property": "C72",
   "status": "proved",
   "theorems": [
    "C72_hockey",
    "C72_renyi"
   ],
   "note": "Proved as stated."
  },
  {
   "property": "C73",
   "status": "partial",
   "theorems": [
    "C73_mmd_partial",
    "C73_lower_bound_partial",
    "C73_bandwidth_refuted",
    "C73_decision",
    "C73_never_rejects",
    "C73_audit_partial"
   ],
   "note": "Partial: the probabilities are proved with twice the failure probability, because the estimate is the better of two bounds that each use all of it. The decision rule is exact. C73_bandwidth_refuted: a negative bandwidth is accepted and breaks the bound. C73_never_rejects: for epsilon of at least ln(1 + sqrt 2) the tester accepts every mechanism."
  },
  {
   "property": "C74",
   "status": "partial",
   "theorems": [
    "C74_output",
    "C74_raises",
    "C74_empty",
    "C74_names",
    "C74_law",
    "C74_exact_count_partial",
    "C74_noisy_count_partial",
    "C74_private_mean_refuted",
    "C74_added_refuted",
    "C74_gaussian_refuted"
   ],
   "note": "Partial: 'private_mean' is proved with an additional delta of exp(-n epsilon/2)/2, the probability of a noisy count that is not positive, and normal noise for epsilon at most 1 (2 with noisy counts); the refuted theorems show that such restrictions are needed. The configuration with an exact mean and a noisy scale is only refuted."
  },
  {
   "property": "C75",
   "status": "proved",
   "theorems": [
    "C75_budget",
    "C75_wrong"
   ],
   "note": "The function is documented as wrong by a factor of 4; both directions are proved."
  },
  {
   "property": "C76",
   "status": "partial",
   "theorems": [
    "C76_scalar",
    "C76_pipeline_partial",
    "C76_classification",
    "C76_range_partial",
    "C76_class_range_partial",
    "C76_returns",
    "C76_pipeline_returns",
    "C76_class_returns",
    "C76_constructor",
    "C76_raises",
    "C76_aggregation",
    "C76_neighbours_refuted",
    "C76_users",
    "C76_read",
    "C76_every_result_refuted",
    "C76_completed_once_refuted",
    "C76_int_range_refuted",
    "C76_labels_refuted"
   ],
   "note": "Partial: the datasets for PipelineDP differ in several users of the mechanism (C76_neighbours_refuted, C76_users), zero results are not reported, a trial may be completed twice after a failure, and integers and labels may be outside the configured ranges; these parts are refuted. The rest is proved for arbitrary optimisers."
  },
  {
   "property": "C77",
   "status": "proved",
   "theorems": [
    "C77_labels",
    "C77_total",
    "C77_given",
    "C77_one",
    "C77_histogram",
    "C77_metrics",
    "C77_negative_refuted",
    "C77_all_negative_refuted",
    "C77_algorithm"
   ],
   "note": "For true labels that are not negative; C77_negative_refuted and C77_all_negative_refuted show what happens to others."
  },
  {
   "property": "C78",
   "status": "proved",
   "theorems": [
    "C78_within",
    "C78_sound",
    "C78_gaussian_buckets",
    "C78_buckets_tight",
    "C78_integer_buckets",
    "C78_raises_refuted",
    "C78_mass_refuted",
    "C78_negative_refuted"
   ],
   "note": "Every pessimistic constructor on every grid, with the error stated and shown to be least for Laplace buckets; totality and the optimistic distributions are refuted."
  },
  {
   "property": "C79",
   "status": "proved",
   "theorems": [
    "C79_laplace",
    "C79_discrete_laplace",
    "C79_discrete_gaussian",
    "C79_gaussian",
    "C79_laplace_buckets",
    "C79_discrete_laplace_buckets",
    "C79_discrete_gaussian_buckets",
    "C79_gaussian_buckets",
    "C79_laplace_epsilon",
    "C79_discrete_laplace_epsilon",
    "C79_discrete_gaussian_epsilon",
    "C79_gaussian_epsilon"
   ],
   "note": "Both constructions, all four kinds of noise: exact at the grid points of connect-the-dots, within exp(interval)-1 everywhere, plus the truncated mass for Gaussian noise."
  },
  {
   "property": "C80",
   "status": "proved",
   "theorems": [
    "C80_optimistic",
    "C80_accounting",
    "C80_from_identity",
    "C80_epsilon",
    "C80_self_compose",
    "C80_two_pmfs",
    "C80_runs",
    "C80_runs_epsilon",
    "C80_runs_optimistic",
    "C80_randomized_response",
    "C80_randomized_response_runs",
    "C80_parameters",
    "C80_parameters_runs"
   ],
   "note": "Lower bounds and accuracy for every adaptive interaction with finitely many outcomes; instances for from_two_probability_mass_functions, randomised response and privacy parameters."
  },
  {
   "property": "C81",
   "status": "proved",
   "theorems": [
    "C81_property",
    "C81_hockey",
    "C81_mmd",
    "C81_renyi"
   ],
   "note": "All configurations; the order of a Renyi tester with a pure guarantee is not checked by the code."
  }
 ]
}