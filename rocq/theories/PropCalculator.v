(** C51 and C58: the privacy calculator of the clustering, and the PLD accountant on events of
    noise mechanisms. *)
From Verif Require Import Base XReal Exn TypesEvent TypesRelation TypesCluster ModelPld ModelMech ModelNoise ModelAccountant ModelSearch ModelCluster ModelCalculator
  ModelAccMix SpecDP SpecEvent SpecMech SpecConstruct SpecAccountant SpecAccPld SpecNoiseAcc SpecAccErr SpecCalculator
  ProofNoiseAcc ProofCalculator ProofCalcEx ProofCalcRun ProofFullAcc ProofFullEx.

(** C51: the event that is accounted for is one Gaussian mechanism with noise multiplier
    sd / sensitivity and depth + 1 Laplace mechanisms of scale 1 / param, *)
Theorem C51_event : forall sd param sens depth e,
  make_clustering_event sd param sens depth = Ok e -> sd <> 0 -> param <> PInf ->
  exists p, param = Fin p /\ (0 <= depth)%Z /\ pos_history [(e, 1%Z)] /\
    history_runs [(e, 1%Z)] = [(Gaussian (PyFloat (sd / sens)), 1%Z); (Laplace (PyFloat (1 / p)), (depth + 1)%Z)].
Proof. exact event_runs. Qed.
Print Assumptions C51_event.
Example C51_event_example : make_clustering_event 100 (Fin 1) 2 3 =
  Ok (Composed [Gaussian (PyFloat (100 / 2)); SelfComposed (Laplace (PyFloat (1 / 1))) 4]).
Proof. exact event_example. Qed.

(** C51: and contains a non-private event if one of the noises is missing. *)
Theorem C51_nonprivate : forall sd param sens depth e,
  make_clustering_event sd param sens depth = Ok e -> sd = 0 \/ param = PInf -> In NonPrivate (atoms e).
Proof. exact event_nonprivate. Qed.
Print Assumptions C51_nonprivate.
Example C51_nonprivate_example : make_clustering_event 100 PInf 2 3 = Ok (Composed [Gaussian (PyFloat (100 / 2)); NonPrivate]).
Proof. exact event_nonprivate_example. Qed.

(** C51: if validate_accounting accepts parameters, then one sum of the given sensitivity with
    Gaussian noise and depth + 1 counts with Laplace noise, chosen adaptively, are together
    (eps, delta)-DP. *)
Theorem C51_validated : forall Phi ppf mixture_pld fast_len fuel, normal_cdf Phi -> quantile_of Phi ppf -> (forall k, (k <= fast_len k)%nat) ->
  forall c sd sens param eps delta depth,
  new_calc sd sens param = Ok c -> delta < 1 ->
  validate_accounting Phi ppf mixture_pld fast_len fuel c (Fin eps) delta depth = Ok tt ->
  0 < sd /\ exists a, param = Fin a /\ 0 < a /\ (0 <= depth)%Z /\
    forall E, interaction (clustering_queries Phi sd sens (1 / a) (Z.to_nat (depth + 1))) E -> dp_both E eps delta.
Proof. exact validated. Qed.
Print Assumptions C51_validated.
Example C51_validated_example : exists Phi ppf, normal_cdf Phi /\ quantile_of Phi ppf /\ forall mixture_pld,
  new_calc 100 1 (Fin 1) = Ok (mkCalc 100 1 (Fin 1)) /\
  validate_accounting Phi ppf mixture_pld (fun k => k) 0 (mkCalc 100 1 (Fin 1)) (Fin 0) (9 / 20) 0 = Ok tt.
Proof. exact accept_example. Qed.

(** C51: validate_accounting never rejects a calculator constructed for the same budget, *)
Theorem C51_calibrated : forall Phi ppf mixture_pld fast_len fuel brentq, normal_cdf Phi -> quantile_of Phi ppf -> (forall k, (k <= fast_len k)%nat) ->
  forall eps delta radius depth m c, delta < 1 ->
  new_calculator Phi ppf mixture_pld fast_len fuel brentq (Fin eps) delta radius depth m = Ok c ->
  validate_accounting Phi ppf mixture_pld fast_len fuel c (Fin eps) delta depth = Ok tt.
Proof. exact calibrated_validates. Qed.
Print Assumptions C51_calibrated.

(** C51: so the queries with the noise it chose are (eps, delta)-DP. *)
Theorem C51_private : forall Phi ppf mixture_pld fast_len fuel brentq, normal_cdf Phi -> quantile_of Phi ppf -> (forall k, (k <= fast_len k)%nat) ->
  forall eps delta radius depth m c, delta < 1 ->
  new_calculator Phi ppf mixture_pld fast_len fuel brentq (Fin eps) delta radius depth m = Ok c ->
  0 < gaussian_std_dev c /\ sensitivity c = radius /\ exists a, laplace_param c = Fin a /\ 0 < a /\ (0 <= depth)%Z /\
    forall E, interaction (clustering_queries Phi (gaussian_std_dev c) radius (1 / a) (Z.to_nat (depth + 1))) E -> dp_both E eps delta.
Proof. exact calculator_private. Qed.
Print Assumptions C51_private.

(** C51: and the two noises it chose stand in the ratio given by the multipliers: for one
    alpha, the standard deviation is the Gaussian multiplier times alpha times the radius, and
    the scale 1/a of the Laplace noise is the Laplace multiplier times alpha. *)
Theorem C51_multipliers : forall Phi ppf mixture_pld fast_len fuel brentq, normal_cdf Phi -> quantile_of Phi ppf -> (forall k, (k <= fast_len k)%nat) ->
  forall eps delta radius depth m c, delta < 1 ->
  new_calculator Phi ppf mixture_pld fast_len fuel brentq (Fin eps) delta radius depth m = Ok c ->
  exists alpha, gaussian_std_dev c = gaussian_multiplier m * alpha * radius /\ laplace_param c = Fin (1 / (laplace_multiplier m * alpha)) /\ 0 < laplace_multiplier m * alpha.
Proof. exact calculator_ratio. Qed.
Print Assumptions C51_multipliers.
(** A calculator for (1, 9/20), radius 1 and depth 0 that is constructed (the search meets no
    error and stops). *)
Example C51_calculator_example : exists Phi ppf mixture_pld fuel brentq m c, normal_cdf Phi /\ quantile_of Phi ppf /\
  0 < gaussian_multiplier m /\ 0 < laplace_multiplier m /\
  new_calculator Phi ppf mixture_pld (fun k => k) fuel brentq (Fin 1) (9 / 20) 1 0 m = Ok c.
Proof. exact calculator_example. Qed.

(** C51, refuted for the code as it runs: the counts that the clustering releases get discrete
    Laplace noise of parameter a (not Laplace noise of scale 1/a), which is less private.
    validate_accounting accepts (0, 9/20) for standard deviation 100, sensitivity 1 and count
    parameter 1 at depth 0, but the queries with the noise that is really added are not
    (0, 9/20)-DP. *)
Theorem C51_discrete_refuted :
  exists (Phi ppf : R -> R) F, normal_cdf Phi /\ quantile_of Phi ppf /\ integer_noise (dlaplace_weights 1) F /\
  (forall mixture_pld, validate_accounting Phi ppf mixture_pld (fun k => k) 0 (mkCalc 100 1 (Fin 1)) (Fin 0) (9 / 20) 0 = Ok tt) /\
  exists E, interaction (released_queries Phi 100 1 F 1) E /\ ~ dp_both E 0 (9 / 20).
Proof. exact discrete_refuted. Qed.
Print Assumptions C51_discrete_refuted.

(** C51: the default tree parameters are valid whatever the noisy count is. *)
Theorem C51_tree : forall count_of k pts dim pc depth s, (1 <= k)%Z -> 0 < sensitivity pc ->
  exists tp count s', default_tree_param count_of k pts dim pc depth s = Ok (tp, count, s') /\
    (1 <= min_node tp)%Z /\ (min_node tp <= min_branching tp)%Z /\ max_depth tp = depth.
Proof. exact tree_valid. Qed.
Print Assumptions C51_tree.

(** C51: the search for the noise starts at the value at which the Gaussian mechanism alone gets
    the smallest standard deviation that the budget allows (C35), and guesses twice that. *)
Theorem C51_search_interval : forall Phi ppf fuel eps delta radius m iv,
  get_alpha_interval Phi ppf fuel eps delta radius m = Ok iv ->
  exists e sd a, eps = Fin e /\ 0 <= e /\ 0 <= delta <= 1 /\
    smallest_gaussian_noise Phi ppf fuel (e, delta) 1 radius = Ok (Fin sd) /\
    get_gaussian_std_dev m a radius = sd /\ iv = LowerAndGuess a (2 * a).
Proof. exact alpha_interval. Qed.
Print Assumptions C51_search_interval.

(** C58: whatever sequence of events a PLD accountant has been given, its delta and epsilon hold
    for every adaptive interaction of the computations that the events describe: sums with
    Gaussian or Laplace noise, on Poisson samples or not, and randomised response.  Partial:
    randomised response once per call (more is false, see C06), no mixtures of Gaussians, and for sampled mechanisms a discretization grid that
    avoids a relative 1e-9 neighbourhood of the limit of the loss (see C26). *)
Theorem C58_noise_sound_partial : forall Phi ppf mixture_pld fast_len fuel rel disc,
  normal_cdf Phi -> quantile_of Phi ppf -> (forall k, (k <= fast_len k)%nat) -> 0 < disc ->
  forall A0 h A E, pld_new disc = Ok A0 -> runs (pld_accountant Phi ppf mixture_pld fast_len fuel rel disc) A0 h A ->
  pos_history h -> Forall (noise_run disc) (history_runs h) ->
  interaction (run_classes (noise_event Phi rel) (history_runs h)) E ->
  (forall eps, dp_both E eps (pldacc_delta (acc_state A) (Fin eps))) /\
  (forall delta e, pldacc_epsilon (acc_state A) delta = Ok (Fin e) -> dp_both E e delta).
Proof. exact noise_accountant_sound. Qed.
Print Assumptions C58_noise_sound_partial.
Example C58_example : exists Phi ppf A0 A, normal_cdf Phi /\ quantile_of Phi ppf /\
  let h := [(Composed [Gaussian (PyFloat (100 / 1)); SelfComposed (Laplace (PyFloat (1 / 1))) 3], 1%Z)] in
  pld_new default_disc = Ok A0 /\
  runs (pld_accountant Phi ppf (fun _ _ _ => Err ValueError) (fun k => k) 0 ADD_OR_REMOVE_ONE default_disc) A0 h A /\
  pos_history h /\ Forall (noise_run default_disc) (history_runs h) /\
  exists E, interaction (run_classes (noise_event Phi ADD_OR_REMOVE_ONE) (history_runs h)) E.
Proof. exact noise_history_example. Qed.

(** C58: and for all events, on every discretization grid and with mixtures of Gaussians (sums
    whose shift is random), they hold up to an error that is stated in advance: every run of a
    sampled mechanism adds exp(2e-9 |log(1-q)|) - 1 and every run of a mixture adds the error of
    C64; the other mechanisms add nothing.  Partial: randomised response once per call (more is
    false, see C06), sampled Gaussian noise and mixtures at most 10^20 times in a run, and mixtures whose
    probabilities add up to 1 and give positive sensitivities at least 2e-8. *)
Theorem C58_noise_within_partial : forall Phi ppf fast_len fuel rel disc,
  normal_cdf Phi -> quantile_of Phi ppf -> (forall k, (k <= fast_len k)%nat) -> 0 < disc ->
  forall A0 h A E, pld_new disc = Ok A0 -> runs (full_accountant Phi ppf fast_len fuel rel disc) A0 h A ->
  pos_history h -> Forall covered_run (history_runs h) ->
  interaction (run_classes (noise_or_mixture Phi rel) (history_runs h)) E ->
  (forall eps, dp_both E eps (pldacc_delta (acc_state A) (Fin eps) + total_error event_error (history_runs h))) /\
  (forall delta e, pldacc_epsilon (acc_state A) delta = Ok (Fin e) -> dp_both E e (delta + total_error event_error (history_runs h))).
Proof. exact full_accountant_within. Qed.
Print Assumptions C58_noise_within_partial.
Example C58_within_example : exists Phi ppf fuel A0 A, normal_cdf Phi /\ quantile_of Phi ppf /\
  let h := [(SelfComposed (MixtureOfGaussians (PyFloat 1) [PyFloat 1; PyFloat 2] [PyFloat (1/2); PyFloat (1/2)]) 2, 1%Z)] in
  pld_new default_disc = Ok A0 /\ runs (full_accountant Phi ppf (fun k => k) fuel ADD_OR_REMOVE_ONE default_disc) A0 h A /\ pos_history h /\
  Forall covered_run (history_runs h) /\ exists E, interaction (run_classes (noise_or_mixture Phi ADD_OR_REMOVE_ONE) (history_runs h)) E.
Proof. exact full_history_example. Qed.
