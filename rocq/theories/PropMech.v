(** Properties of the additive noise mechanisms (C26, C27, C28). *)
From Verif Require Import Base XReal Exn TypesAdjacency ModelMech SpecDP SpecMech SpecClasses
  ProofAdditive ProofClasses ProofMechTop ProofGuarantee ProofMechEx ProofGaussTotal ProofGaussEx.

(** C26: privacy_loss(x) is the log-likelihood ratio of the two output distributions at x. *)
Theorem C26_loss : forall m ok F f s q adj x l,
  additive_noise m ok F f s q adj -> privacy_loss m (Fin x) = Ok l ->
  log_ratio (upper_density adj f q s x) (lower_density adj f q s x) l.
Proof. exact (fun m ok F f s q adj x l H => mech_loss m ok F f s q adj H x l). Qed.
Print Assumptions C26_loss.

(** C26: it is defined wherever one of the two distributions puts mass. *)
Theorem C26_loss_defined : forall m ok F f s q adj x,
  additive_noise m ok F f s q adj -> ok x ->
  0 < upper_density adj f q s x \/ 0 < lower_density adj f q s x ->
  exists l, privacy_loss m (Fin x) = Ok l.
Proof. exact (fun m ok F f s q adj x H => mech_defined m ok F f s q adj H x). Qed.
Print Assumptions C26_loss_defined.

(** C26: it is non-increasing. *)
Theorem C26_monotone : forall m ok F f s q adj x y lx ly,
  additive_noise m ok F f s q adj ->
  privacy_loss m (Fin x) = Ok lx -> privacy_loss m (Fin y) = Ok ly -> x <= y -> xleb ly lx = true.
Proof. exact (fun m ok F f s q adj x y lx ly H => mech_mono m ok F f s q adj H x y lx ly). Qed.
Print Assumptions C26_monotone.

(** C26: x <= inverse_privacy_loss(l) if and only if privacy_loss(x) >= l, except for l within
    a relative 1e-9 of the bound of the privacy loss of a subsampled mechanism. *)
Theorem C26_inverse_partial : forall m ok F f s q adj x lx l p,
  additive_noise m ok F f s q adj ->
  privacy_loss m (Fin x) = Ok lx -> inverse_privacy_loss m (Fin l) = Ok p -> ~ near_limit adj q l ->
  xleb (Fin x) p = true <-> xleb (Fin l) lx = true.
Proof. exact (fun m ok F f s q adj x lx l p H => mech_galois m ok F f s q adj H x lx l p). Qed.
Print Assumptions C26_inverse_partial.

(** C26: the inverse is defined exactly for the possible losses; for others a ValueError is
    raised. *)
Theorem C26_inverse_defined : forall m ok F f s q adj l,
  additive_noise m ok F f s q adj -> ~ near_limit adj q l ->
  (loss_possible adj q l -> exists p, inverse_privacy_loss m (Fin l) = Ok p /\ p <> NaN) /\
  (~ loss_possible adj q l -> inverse_privacy_loss m (Fin l) = Err ValueError).
Proof. exact (fun m ok F f s q adj l H => mech_inverse_total m ok F f s q adj H l). Qed.
Print Assumptions C26_inverse_defined.

(** C26: close to the bound the inverse is wrong: infinity is returned although there are
    outputs with a smaller loss. *)
Theorem C26_near_refuted : exists m l x lx,
  LaplacePrivacyLoss 1 40 (1/2) REMOVE = Ok m /\ inverse_privacy_loss m (Fin l) = Ok PInf /\
  privacy_loss m (Fin x) = Ok (Fin lx) /\ lx < l.
Proof. exact inverse_near_refuted. Qed.
Print Assumptions C26_near_refuted.

(** Objects of all four classes, a loss that is possible and not close to the bound, and an
    output on which integer noise puts mass. *)
Example C26_example : forall adj,
  (exists m, additive_noise m any_value (laplace_law 2) (fun x => exp (- Rabs x / 2)) 3 (1/2) adj) /\
  (exists Phi m, additive_noise m any_value (fun x => Phi (x / 2)) (fun x => exp (- (x * x) / (2 * (2 * 2)))) 3 (1/2) adj) /\
  (exists F m, additive_noise m integer_value F (fun x => dlaplace_weights 2 (Rfloor x)) (IZR 3) (1/2) adj) /\
  (exists F m, additive_noise m integer_value F (fun x => dgaussian_weights 2 10 (Rfloor x)) (IZR 3) (1/2) adj) /\
  ~ near_limit adj (1/2) 0 /\ loss_possible adj (1/2) 0 /\ integer_value 1.
Proof. exact classes_example. Qed.

(** C27: get_delta_for_epsilon is the hockey-stick divergence of the two output
    distributions (with the same exception). *)
Theorem C27_divergence_partial : forall m ok F f s q adj eps,
  additive_noise m ok F f s q adj -> ~ near_limit adj q eps ->
  exists delta, get_delta_for_epsilon m eps = Ok (Fin delta) /\
    divergence_is (upper_law adj F q s) (lower_law adj F q s) eps delta.
Proof. exact (fun m ok F f s q adj eps H => mech_delta m ok F f s q adj H eps). Qed.
Print Assumptions C27_divergence_partial.

(** C27: in the exceptional range it is at most the divergence, and too small by at most
    e^|eps - bound| - 1. *)
Theorem C27_near : forall m ok F f s q adj eps,
  additive_noise m ok F f s q adj -> near_limit adj q eps ->
  exists d delta, get_delta_for_epsilon m eps = Ok (Fin d) /\
    divergence_is (upper_law adj F q s) (lower_law adj F q s) eps delta /\
    d <= delta <= d + (exp (Rabs (eps - loss_limit adj q)) - 1).
Proof. exact (fun m ok F f s q adj eps H => mech_delta_near m ok F f s q adj H eps). Qed.
Print Assumptions C27_near.

Theorem C27_near_refuted : exists m eps delta,
  LaplacePrivacyLoss 1 40 (1/2) ADD = Ok m /\ get_delta_for_epsilon m eps = Ok (Fin 0) /\
  divergence_is (upper_law ADD (laplace_law 1) (1/2) 40) (lower_law ADD (laplace_law 1) (1/2) 40) eps delta /\ 0 < delta.
Proof. exact delta_near_refuted. Qed.
Print Assumptions C27_near_refuted.

(** C27: the two values are valid for every pair of neighbouring datasets: noise added to a
    query of sensitivity s, with sampling. *)
Theorem C27_neighbours : forall mr ma ok F f s q eps dr da E,
  additive_noise mr ok F f s q REMOVE -> additive_noise ma ok F f s q ADD ->
  ~ near_limit REMOVE q eps -> ~ near_limit ADD q eps ->
  get_delta_for_epsilon mr eps = Ok (Fin dr) -> get_delta_for_epsilon ma eps = Ok (Fin da) ->
  noisy_query ok F q s E -> valid E /\ dp E eps dr /\ dp (swap E) eps da.
Proof. exact mech_neighbours. Qed.
Print Assumptions C27_neighbours.

Example C27_example : forall F,
  noisy_query any_value F (1/2) 3
    (observe (sampled (1/2) (add_noise F 5) (add_noise F (5 + -2))) (add_noise F 5) [0; 4]).
Proof. exact query_example. Qed.

(** C28: Laplace noise from a privacy guarantee makes every query of the given sensitivity
    eps-DP with sampling, and no smaller amount of noise does. *)
Theorem C28_laplace : forall eps delta s q b,
  0 <= eps -> laplace_from_guarantee (eps, delta) s q = Ok (Fin b) ->
  0 < b /\ (forall E, noisy_query any_value (laplace_law b) q s E -> dp_both E eps 0) /\
  (forall b', 0 < b' < b -> exists E, noisy_query any_value (laplace_law b') q s E /\ ~ dp E eps 0).
Proof. exact laplace_guarantee. Qed.
Print Assumptions C28_laplace.

Theorem C28_laplace_total : forall eps delta s q, 0 < eps -> 0 < s -> 0 < q <= 1 ->
  exists b, laplace_from_guarantee (eps, delta) s q = Ok (Fin b).
Proof. exact laplace_guarantee_total. Qed.
Print Assumptions C28_laplace_total.

Theorem C28_discrete_laplace : forall eps delta s q a F,
  0 <= eps -> dlaplace_from_guarantee (eps, delta) s q = Ok (Fin a) -> integer_noise (dlaplace_weights a) F ->
  0 < a /\ (forall E, noisy_query integer_value F q (IZR s) E -> dp_both E eps 0) /\
  (forall a' F', a < a' -> integer_noise (dlaplace_weights a') F' ->
     exists E, noisy_query integer_value F' q (IZR s) E /\ ~ dp E eps 0).
Proof. exact dlaplace_guarantee. Qed.
Print Assumptions C28_discrete_laplace.

(** C28: for Gaussian noise, also no standard deviation smaller by more than 1e-7 would do. *)
Theorem C28_gaussian : forall Phi ppf fuel eps delta s q x,
  normal_cdf Phi -> 0 <= eps -> 0 <= delta <= 1 -> 0 < s ->
  gaussian_from_guarantee Phi ppf fuel (eps, delta) s q = Ok x ->
  exists sigma, x = Fin sigma /\ 0 < sigma /\
    (forall E, noisy_query any_value (fun y => Phi (y / sigma)) q s E -> dp_both E eps delta) /\
    (forall sigma', 0 < sigma' -> sigma' < sigma - 1 / 10 ^ 7 ->
       exists E, noisy_query any_value (fun y => Phi (y / sigma')) q s E /\ ~ dp E eps delta).
Proof. exact (fun Phi ppf fuel eps delta s q x HPhi => guarantee_tight Phi ppf HPhi fuel eps delta s q x). Qed.
Print Assumptions C28_gaussian.

Theorem C28_gaussian_returns : forall Phi ppf eps delta s q,
  normal_cdf Phi -> 0 < eps -> 0 < delta <= 1 -> 0 < s -> 0 < q <= 1 ->
  exists N x, forall fuel, (N <= fuel)%nat -> gaussian_from_guarantee Phi ppf fuel (eps, delta) s q = Ok x.
Proof. exact (fun Phi ppf eps delta s q HPhi => guarantee_total Phi ppf HPhi eps delta s q). Qed.
Print Assumptions C28_gaussian_returns.

Example C28_gaussian_example : exists Phi ppf fuel sigma, normal_cdf Phi /\
  gaussian_from_guarantee Phi ppf fuel (1, 1 / 10 ^ 5) 2 (1/3) = Ok (Fin sigma) /\ 0 < sigma /\
  exists E, noisy_query any_value (fun y => Phi (y / sigma)) (1/3) 2 E.
Proof. exact guarantee_example_gauss. Qed.

Example C28_example :
  (exists b, laplace_from_guarantee (1, 0) 3 (1/2) = Ok (Fin b)) /\
  (exists a F, dlaplace_from_guarantee (1, 0) 3 (1/2) = Ok (Fin a) /\ integer_noise (dlaplace_weights a) F).
Proof. exact guarantee_example. Qed.
