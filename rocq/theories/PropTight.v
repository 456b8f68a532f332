(** Properties of the accuracy of constructed privacy loss distributions. *)
From Verif Require Import Base XReal Exn SpecDP ModelPmf ModelPld ModelMech SpecPmf SpecPld SpecMech SpecConstruct
  ProofNormal ProofConstructTotal ProofConstructEx ProofTightMech ProofTightBuckets ProofTightEps.

(** C79: the delta of a pessimistic connect-the-dots estimate is exactly that of the worst query
    at every multiple of the discretization interval, and at most exp(interval) - 1 above it
    everywhere. *)
Theorem C79_laplace : forall fuel b s disc q D, 0 < disc -> grid_clear disc q ->
  from_laplace_mechanism fuel b s true disc q true = Ok D ->
  (forall z, worst_delta any_value (laplace_law b) q s (IZR z * disc) (pld_delta D (Fin (IZR z * disc)))) /\
  (forall eps, exists d, worst_delta any_value (laplace_law b) q s eps d /\
    d <= pld_delta D (Fin eps) <= d + (exp disc - 1)).
Proof. exact laplace_tight. Qed.
Print Assumptions C79_laplace.
Theorem C79_discrete_laplace : forall fuel a s F disc q D, integer_noise (dlaplace_weights a) F ->
  0 < disc -> grid_clear disc q ->
  from_discrete_laplace_mechanism fuel a s true disc q true = Ok D ->
  (forall z, worst_delta integer_value F q (IZR s) (IZR z * disc) (pld_delta D (Fin (IZR z * disc)))) /\
  (forall eps, exists d, worst_delta integer_value F q (IZR s) eps d /\
    d <= pld_delta D (Fin eps) <= d + (exp disc - 1)).
Proof. exact dlaplace_tight. Qed.
Print Assumptions C79_discrete_laplace.
Theorem C79_discrete_gaussian : forall fuel sigma s bound F disc q D,
  integer_noise (dgaussian_weights sigma (default_bound sigma bound)) F ->
  0 < disc -> grid_clear disc q ->
  from_discrete_gaussian_mechanism fuel sigma s bound true disc q true = Ok D ->
  (forall z, worst_delta integer_value F q (IZR s) (IZR z * disc) (pld_delta D (Fin (IZR z * disc)))) /\
  (forall eps, exists d, worst_delta integer_value F q (IZR s) eps d /\
    d <= pld_delta D (Fin eps) <= d + (exp disc - 1)).
Proof. exact dgauss_tight. Qed.
Print Assumptions C79_discrete_gaussian.

(** C79: for Gaussian noise the estimate also counts what it truncates, at most half of
    exp(log_mass_truncation_bound). *)
Theorem C79_gaussian : forall Phi ppf fuel sigma s lb disc q D, normal_cdf Phi -> quantile_of Phi ppf ->
  0 < disc -> grid_clear disc q ->
  from_gaussian_mechanism Phi ppf fuel sigma s true disc lb q true = Ok D ->
  (forall z, exists d, worst_delta any_value (fun x => Phi (x / sigma)) q s (IZR z * disc) d /\
    d <= pld_delta D (Fin (IZR z * disc)) <= d + exp lb / 2) /\
  (forall eps, exists d, worst_delta any_value (fun x => Phi (x / sigma)) q s eps d /\
    d <= pld_delta D (Fin eps) <= d + (exp disc - 1) + exp lb / 2).
Proof. exact gaussian_tight. Qed.
Print Assumptions C79_gaussian.

(** C79: the delta of a pessimistic estimate built from privacy buckets lies between that of the
    worst query at the same epsilon and that of the worst query one interval to the left, so it is
    at most exp(interval) - 1 above the former everywhere. *)
Theorem C79_laplace_buckets : forall fuel b s disc q D, 0 < disc -> grid_clear disc q ->
  from_laplace_mechanism fuel b s true disc q false = Ok D ->
  forall eps, exists d d', worst_delta any_value (laplace_law b) q s eps d /\
    worst_delta any_value (laplace_law b) q s (eps - disc) d' /\
    d <= pld_delta D (Fin eps) <= d' /\ d' <= d + (exp disc - 1).
Proof. exact laplace_near. Qed.
Print Assumptions C79_laplace_buckets.
Theorem C79_discrete_laplace_buckets : forall fuel a s F disc q D, integer_noise (dlaplace_weights a) F ->
  0 < disc -> grid_clear disc q ->
  from_discrete_laplace_mechanism fuel a s true disc q false = Ok D ->
  forall eps, exists d d', worst_delta integer_value F q (IZR s) eps d /\
    worst_delta integer_value F q (IZR s) (eps - disc) d' /\
    d <= pld_delta D (Fin eps) <= d' /\ d' <= d + (exp disc - 1).
Proof. exact dlaplace_near. Qed.
Print Assumptions C79_discrete_laplace_buckets.
Theorem C79_discrete_gaussian_buckets : forall fuel sigma s bound F disc q D,
  integer_noise (dgaussian_weights sigma (default_bound sigma bound)) F ->
  0 < disc -> grid_clear disc q ->
  from_discrete_gaussian_mechanism fuel sigma s bound true disc q false = Ok D ->
  forall eps, exists d d', worst_delta integer_value F q (IZR s) eps d /\
    worst_delta integer_value F q (IZR s) (eps - disc) d' /\
    d <= pld_delta D (Fin eps) <= d' /\ d' <= d + (exp disc - 1).
Proof. exact dgauss_near. Qed.
Print Assumptions C79_discrete_gaussian_buckets.

(** C79: for Gaussian noise the estimate again counts what it truncates. *)
Theorem C79_gaussian_buckets : forall Phi ppf fuel sigma s lb disc q D, normal_cdf Phi -> quantile_of Phi ppf ->
  0 < disc -> grid_clear disc q ->
  from_gaussian_mechanism Phi ppf fuel sigma s true disc lb q false = Ok D ->
  forall eps, exists d d', worst_delta any_value (fun x => Phi (x / sigma)) q s eps d /\
    worst_delta any_value (fun x => Phi (x / sigma)) q s (eps - disc) d' /\
    d <= pld_delta D (Fin eps) <= d' + exp lb /\ d' <= d + (exp disc - 1).
Proof. exact gaussian_near. Qed.
Print Assumptions C79_gaussian_buckets.

(** The hypotheses can be met, with sampling and with either construction. *)
Example C79_example : forall dots, grid_clear 1 (1/2) /\
  (exists N D, from_laplace_mechanism N 2 3 true 1 (1/2) dots = Ok D) /\
  (exists F N D, integer_noise (dlaplace_weights 2) F /\ from_discrete_laplace_mechanism N 2 3 true 1 (1/2) dots = Ok D) /\
  (exists F N D, integer_noise (dgaussian_weights 2 (default_bound 2 (Some 5%Z))) F /\
    from_discrete_gaussian_mechanism N 2 3 (Some 5%Z) true 1 (1/2) dots = Ok D) /\
  (exists Phi ppf N D, normal_cdf Phi /\ quantile_of Phi ppf /\
    from_gaussian_mechanism Phi ppf N 2 3 true 1 (-50) (1/2) dots = Ok D).
Proof. exact tight_example. Qed.

(** C79: so, with either construction, if every query is (eps, d)-private, then the epsilon
    reported for a delta above d is finite, valid, and at most one interval above eps. *)
Theorem C79_laplace_epsilon : forall fuel b s dots disc q D eps d delta, 0 < disc -> grid_clear disc q ->
  from_laplace_mechanism fuel b s true disc q dots = Ok D -> 0 <= eps ->
  (forall E, noisy_query any_value (laplace_law b) q s E -> dp_both E eps d) -> d < delta ->
  exists e, pld_epsilon D delta = Ok (Fin e) /\ 0 <= e <= eps + disc /\
    forall E, noisy_query any_value (laplace_law b) q s E -> dp_both E e delta.
Proof. exact laplace_eps. Qed.
Print Assumptions C79_laplace_epsilon.
Theorem C79_discrete_laplace_epsilon : forall fuel a s F dots disc q D eps d delta,
  integer_noise (dlaplace_weights a) F -> 0 < disc -> grid_clear disc q ->
  from_discrete_laplace_mechanism fuel a s true disc q dots = Ok D -> 0 <= eps ->
  (forall E, noisy_query integer_value F q (IZR s) E -> dp_both E eps d) -> d < delta ->
  exists e, pld_epsilon D delta = Ok (Fin e) /\ 0 <= e <= eps + disc /\
    forall E, noisy_query integer_value F q (IZR s) E -> dp_both E e delta.
Proof. exact dlaplace_eps. Qed.
Print Assumptions C79_discrete_laplace_epsilon.
Theorem C79_discrete_gaussian_epsilon : forall fuel sigma s bound F dots disc q D eps d delta,
  integer_noise (dgaussian_weights sigma (default_bound sigma bound)) F -> 0 < disc -> grid_clear disc q ->
  from_discrete_gaussian_mechanism fuel sigma s bound true disc q dots = Ok D -> 0 <= eps ->
  (forall E, noisy_query integer_value F q (IZR s) E -> dp_both E eps d) -> d < delta ->
  exists e, pld_epsilon D delta = Ok (Fin e) /\ 0 <= e <= eps + disc /\
    forall E, noisy_query integer_value F q (IZR s) E -> dp_both E e delta.
Proof. exact dgauss_eps. Qed.
Print Assumptions C79_discrete_gaussian_epsilon.
(** For Gaussian noise delta must exceed d by the truncated mass. *)
Theorem C79_gaussian_epsilon : forall Phi ppf fuel sigma s lb dots disc q D eps d delta,
  normal_cdf Phi -> quantile_of Phi ppf -> 0 < disc -> grid_clear disc q ->
  from_gaussian_mechanism Phi ppf fuel sigma s true disc lb q dots = Ok D -> 0 <= eps ->
  (forall E, noisy_query any_value (fun x => Phi (x / sigma)) q s E -> dp_both E eps d) -> d + exp lb < delta ->
  exists e, pld_epsilon D delta = Ok (Fin e) /\ 0 <= e <= eps + disc /\
    forall E, noisy_query any_value (fun x => Phi (x / sigma)) q s E -> dp_both E e delta.
Proof. exact gaussian_eps. Qed.
Print Assumptions C79_gaussian_epsilon.
Example C79_epsilon_example : forall eps, exists d, forall E, noisy_query any_value (laplace_law 2) (1/2) 3 E -> dp_both E eps d.
Proof. exact eps_example. Qed.
