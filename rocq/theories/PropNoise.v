(** Properties of the searches for the smallest noise (C35). *)
From Verif Require Import Base XReal Exn TypesAdjacency ModelPmf ModelPld ModelMake ModelSearch ModelSmallest ModelMech ModelNoise
  SpecDP SpecPmf SpecPld SpecSearch SpecMech SpecClasses SpecConstruct ProofSmallestEx ProofConstructEx ProofFindNoise ProofFindTotal ProofNoiseEx
  ProofGaussNoise ProofGaussTotal ProofGdpTight ProofGaussEx.

(** C35, get_smallest_parameter: if the constructor's distributions bound the mechanism
    [mech x] with parameter [x], then with the returned parameter every adaptive interaction
    of n runs is (eps, delta)-DP; and if the delta of the self composed distribution does not
    increase with the parameter, no parameter in the range that is smaller by more than the
    tolerance passes the same test. *)
Theorem C35_parameter : forall fast_len tail fuel eps delta n ctor (mech : R -> exper -> Prop) l up g t disc x,
  (forall k, (k <= fast_len k)%nat) -> 0 <= tail -> search_ok l up g t disc ->
  (forall x D, in_range l up x -> ctor (Fin x) = Ok D -> sound_pld D /\ (forall E, mech x E -> pld_bounds D E)) ->
  smallest_parameter fast_len tail fuel (eps, delta) n ctor (params_of l up g t disc) = Ok (Some x) ->
  exists x', x = Fin x' /\ in_range l up x' /\ (exists D, ctor (Fin x') = Ok D) /\
    (forall E, interaction (repeat (mech x') (Z.to_nat n)) E -> dp_both E eps delta) /\
    (non_increasing (delta_for_parameter fast_len tail eps n ctor) -> forall y D Dn, in_range l up y -> ctor (Fin y) = Ok D ->
       pld_self_compose fast_len D n tail = Ok Dn -> pld_delta Dn (Fin eps) <= delta -> x' <= y + tol_of t disc).
Proof. exact smallest_parameter_sound. Qed.
Print Assumptions C35_parameter.

Example C35_parameter_example :
  search_ok 0 (Fin 1) None (1 / 10 ^ 7) false /\
  (forall fuel x D, in_range 0 (Fin 1) x -> laplace_for fuel 1 1 1 (Fin x) = Ok D ->
     sound_pld D /\ (forall E, noisy_query any_value (laplace_law x) 1 1 E -> pld_bounds D E)) /\
  exists fuel x, smallest_parameter (fun k => k) default_tail fuel (1, 1 / 10 ^ 10) 1 (laplace_for fuel 1 1 1)
    (params_of 0 (Fin 1) None (1 / 10 ^ 7) false) = Ok (Some x).
Proof. exact parameter_example. Qed.

(** C35, get_smallest_laplace_noise: with the returned scale b, every adaptive interaction of
    n queries of sensitivity s, each answered with Laplace noise of scale b, is
    (eps, delta)-DP; and b is never more than basic composition needs. *)
Theorem C35_laplace : forall fast_len fuel eps delta pp n s x,
  (forall k, (k <= fast_len k)%nat) ->
  privacy_parameters eps delta = Ok pp -> (1 <= n)%Z -> 0 < s ->
  smallest_laplace_noise fast_len fuel pp n s = Ok x ->
  exists b, x = Fin b /\ 0 < b <= IZR n * s / eps /\
    forall E, interaction (repeat (noisy_query any_value (laplace_law b) 1 s) (Z.to_nat n)) E -> dp_both E eps delta.
Proof. exact laplace_noise_sound. Qed.
Print Assumptions C35_laplace.

(** C35: and it returns, for every target with positive epsilon (delta may be zero). *)
Theorem C35_laplace_returns : forall fast_len eps delta pp n s,
  privacy_parameters eps delta = Ok pp -> 0 < eps -> (1 <= n)%Z -> 0 < s ->
  exists N, forall fuel, (N < fuel)%nat -> exists x, smallest_laplace_noise fast_len fuel pp n s = Ok x.
Proof. exact laplace_noise_total. Qed.
Print Assumptions C35_laplace_returns.

Example C35_laplace_example :
  privacy_parameters 1 (1 / 10 ^ 10) = Ok (1, 1 / 10 ^ 10) /\
  (exists fuel b, smallest_laplace_noise (fun k => k) fuel (1, 1 / 10 ^ 10) 3 2 = Ok (Fin b) /\ 0 < b <= 6 /\
     exists E, interaction (repeat (noisy_query any_value (laplace_law b) 1 2) 3) E).
Proof. exact laplace_noise_example. Qed.

(** C35, get_smallest_discrete_laplace_noise: likewise with discrete Laplace noise of the
    returned parameter a (the noise is k with probability proportional to e^(-a|k|)), which
    is never smaller than basic composition needs. *)
Theorem C35_discrete_laplace : forall fast_len fuel eps delta pp n s x F,
  (forall k, (k <= fast_len k)%nat) ->
  privacy_parameters eps delta = Ok pp -> (1 <= n)%Z -> (0 < s)%Z ->
  smallest_discrete_laplace_noise fast_len fuel pp n s = Ok x ->
  exists a, x = Fin a /\ eps / (IZR n * IZR s) <= a /\
    (integer_noise (dlaplace_weights a) F ->
     forall E, interaction (repeat (noisy_query integer_value F 1 (IZR s)) (Z.to_nat n)) E -> dp_both E eps delta).
Proof. exact discrete_laplace_noise_sound. Qed.
Print Assumptions C35_discrete_laplace.

Theorem C35_discrete_laplace_returns : forall fast_len eps delta pp n s,
  privacy_parameters eps delta = Ok pp -> 0 < eps -> (1 <= n)%Z -> (0 < s)%Z ->
  exists N, forall fuel, (N < fuel)%nat -> exists x, smallest_discrete_laplace_noise fast_len fuel pp n s = Ok x.
Proof. exact discrete_laplace_noise_total. Qed.
Print Assumptions C35_discrete_laplace_returns.

Example C35_discrete_laplace_example :
  privacy_parameters 1 (1 / 10 ^ 10) = Ok (1, 1 / 10 ^ 10) /\
  (exists fuel a F, smallest_discrete_laplace_noise (fun k => k) fuel (1, 1 / 10 ^ 10) 3 2 = Ok (Fin a) /\ 1 / 6 <= a /\
     integer_noise (dlaplace_weights a) F /\ exists E, interaction (repeat (noisy_query integer_value F 1 2) 3) E).
Proof. exact discrete_noise_example. Qed.

(** C35, get_smallest_gaussian_noise: with the returned standard deviation sigma, every
    adaptive interaction of n queries of sensitivity s with Gaussian noise is
    (eps, delta)-DP; and with a standard deviation smaller by more than 1e-7 some such
    interaction is not. *)
Theorem C35_gaussian : forall Phi ppf fuel eps delta pp n s x,
  normal_cdf Phi -> privacy_parameters eps delta = Ok pp -> (1 <= n)%Z -> 0 < s ->
  smallest_gaussian_noise Phi ppf fuel pp n s = Ok x ->
  exists sigma, x = Fin sigma /\ 0 < sigma /\
    (forall E, interaction (repeat (noisy_query any_value (fun y => Phi (y / sigma)) 1 s) (Z.to_nat n)) E -> dp_both E eps delta) /\
    (forall sigma', 0 < sigma' -> sigma' < sigma - 1 / 10 ^ 7 ->
       exists E, interaction (repeat (noisy_query any_value (fun y => Phi (y / sigma')) 1 s) (Z.to_nat n)) E /\ ~ dp E eps delta).
Proof. exact (fun Phi ppf fuel eps delta pp n s x HPhi => gaussian_noise_tight Phi HPhi ppf fuel eps delta pp n s x). Qed.
Print Assumptions C35_gaussian.

(** C35: and it returns, for every target with positive epsilon and delta. *)
Theorem C35_gaussian_returns : forall Phi ppf eps delta pp n s,
  normal_cdf Phi -> privacy_parameters eps delta = Ok pp -> 0 < eps -> 0 < delta -> (1 <= n)%Z -> 0 < s ->
  exists N x, forall fuel, (N <= fuel)%nat -> smallest_gaussian_noise Phi ppf fuel pp n s = Ok x.
Proof. exact (fun Phi ppf eps delta pp n s HPhi => gaussian_noise_total Phi ppf HPhi eps delta pp n s). Qed.
Print Assumptions C35_gaussian_returns.

(** C35, get_smallest_subsampled_gaussian_noise: likewise when each query runs on a Poisson
    sample of rate q, and the noise is never more than without sampling.  The hypothesis on
    the grid excludes the rounding of C27 (see [grid_clear]). *)
Theorem C35_subsampled_gaussian : forall Phi ppf fast_len fuel eps delta pp n s q x,
  normal_cdf Phi -> quantile_of Phi ppf -> (forall k, (k <= fast_len k)%nat) ->
  privacy_parameters eps delta = Ok pp -> (1 <= n)%Z -> 0 < s -> 0 < q <= 1 ->
  grid_clear (Rmin (1 / 10 ^ 3) (1/10 * eps / IZR n)) q ->
  smallest_subsampled_gaussian_noise Phi ppf fast_len fuel pp n s q = Ok x ->
  exists sigma, x = Fin sigma /\ 0 < sigma /\
    (exists top, smallest_gaussian_noise Phi ppf fuel pp n s = Ok (Fin top) /\ sigma <= top) /\
    forall E, interaction (repeat (noisy_query any_value (fun y => Phi (y / sigma)) q s) (Z.to_nat n)) E -> dp_both E eps delta.
Proof. exact (fun Phi ppf fast_len fuel eps delta pp n s q x HPhi => subsampled_noise_sound Phi HPhi ppf fast_len fuel eps delta pp n s q x). Qed.
Print Assumptions C35_subsampled_gaussian.

Theorem C35_subsampled_gaussian_returns : forall Phi ppf fast_len eps delta pp n s q,
  normal_cdf Phi -> quantile_of Phi ppf ->
  privacy_parameters eps delta = Ok pp -> 0 < eps -> 0 < delta -> (1 <= n <= 10 ^ 20)%Z -> 0 < s -> 0 < q <= 1 ->
  grid_clear (Rmin (1 / 10 ^ 3) (1/10 * eps / IZR n)) q ->
  exists N, forall fuel, (N <= fuel)%nat -> exists x, smallest_subsampled_gaussian_noise Phi ppf fast_len fuel pp n s q = Ok x.
Proof. exact (fun Phi ppf fast_len eps delta pp n s q HPhi Hppf => subsampled_noise_total Phi ppf HPhi Hppf fast_len eps delta pp n s q). Qed.
Print Assumptions C35_subsampled_gaussian_returns.

Example C35_gaussian_example : exists Phi ppf, normal_cdf Phi /\ quantile_of Phi ppf /\
  privacy_parameters 1 (1 / 10 ^ 5) = Ok (1, 1 / 10 ^ 5) /\
  grid_clear (Rmin (1 / 10 ^ 3) (1/10 * 1 / IZR 3)) small_q /\
  exists fuel sigma sigma', smallest_gaussian_noise Phi ppf fuel (1, 1 / 10 ^ 5) 3 2 = Ok (Fin sigma) /\ 0 < sigma /\
    smallest_subsampled_gaussian_noise Phi ppf (fun k => k) fuel (1, 1 / 10 ^ 5) 3 2 small_q = Ok (Fin sigma') /\ 0 < sigma' /\
    exists E, interaction (repeat (noisy_query any_value (fun y => Phi (y / sigma)) 1 2) 3) E.
Proof. exact gaussian_noise_example. Qed.
