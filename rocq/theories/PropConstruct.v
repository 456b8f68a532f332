(** Properties of the constructors of privacy loss distributions from additive noise mechanisms. *)
From Verif Require Import Base XReal Exn SpecDP ModelPmf ModelPld ModelMech SpecPmf SpecPld SpecMech SpecDGauss SpecConstruct
  ProofNormal ProofConstruct ProofConstructTotal ProofConstructEx ProofDGaussTail ProofDGaussPriv.

(** C56: a pessimistic privacy loss distribution constructed for Laplace, Gaussian, discrete
    Laplace or discrete Gaussian noise, with either construction, bounds the privacy profile of
    every query of the given sensitivity under the given sampling, in both directions. *)
Theorem C56_pessimistic : forall fuel dots disc q D ok F s,
  0 < disc -> grid_clear disc q ->
  from_mechanism fuel true dots disc q (Ok D) ok F s ->
  sound_pld D /\ forall E, noisy_query ok F q s E -> pld_bounds D E.
Proof. exact constructed_sound. Qed.
Print Assumptions C56_pessimistic.

(** C56: an optimistic one never reports a delta above that of the worst such query. *)
Theorem C56_optimistic : forall fuel dots disc q D ok F s,
  0 < disc -> grid_clear disc q ->
  from_mechanism fuel false dots disc q (Ok D) ok F s ->
  wf_pld D /\ inf_le_1 D /\
  pessimistic_estimate (pmf_remove D) = false /\ pessimistic_estimate (pmf_add D) = false /\
  forall eps, exists E, noisy_query ok F q s E /\
    (pld_delta D (Fin eps) <= hockey_stick E eps \/ pld_delta D (Fin eps) <= hockey_stick (swap E) eps).
Proof. exact constructed_optimistic. Qed.
Print Assumptions C56_optimistic.

(** C56: the constructors terminate without an exception for all valid parameters; only a
    pessimistic connect-the-dots estimate needs a clear grid. *)
Theorem C56_laplace_total : forall b s pess disc q dots,
  0 < b -> 0 < s -> 0 < q <= 1 -> 0 < disc ->
  (dots = true -> pess = true -> grid_clear disc q) ->
  exists N D, forall fuel, (N <= fuel)%nat -> from_laplace_mechanism fuel b s pess disc q dots = Ok D.
Proof. exact laplace_constructs. Qed.
Print Assumptions C56_laplace_total.
Theorem C56_gaussian_total : forall Phi ppf sigma s pess disc log_bound q dots,
  normal_cdf Phi -> quantile_of Phi ppf ->
  0 < sigma -> 0 < s -> log_bound <= 0 -> 0 < q <= 1 -> 0 < disc ->
  (dots = true -> pess = true -> grid_clear disc q) ->
  exists N D, forall fuel, (N <= fuel)%nat ->
    from_gaussian_mechanism Phi ppf fuel sigma s pess disc log_bound q dots = Ok D.
Proof. exact gaussian_constructs. Qed.
Print Assumptions C56_gaussian_total.
Theorem C56_discrete_laplace_total : forall a s pess disc q dots,
  0 < a -> (0 < s)%Z -> 0 < q <= 1 -> 0 < disc ->
  (dots = true -> pess = true -> grid_clear disc q) ->
  exists N D, forall fuel, (N <= fuel)%nat -> from_discrete_laplace_mechanism fuel a s pess disc q dots = Ok D.
Proof. exact dlaplace_constructs. Qed.
Print Assumptions C56_discrete_laplace_total.
Theorem C56_discrete_gaussian_total : forall sigma s bound pess disc q dots,
  0 < sigma -> (0 < s <= 2 * default_bound sigma bound)%Z -> 0 < q <= 1 -> 0 < disc ->
  (dots = true -> pess = true -> grid_clear disc q) ->
  exists N D, forall fuel, (N <= fuel)%nat ->
    from_discrete_gaussian_mechanism fuel sigma s bound pess disc q dots = Ok D.
Proof. exact dgauss_constructs. Qed.
Print Assumptions C56_discrete_gaussian_total.

(** The hypotheses can be met: every grid without sampling, a grid with sampling probability
    1/2, and a normal distribution with quantiles. *)
Example C56_example :
  (forall disc, grid_clear disc 1) /\ grid_clear 1 (1/2) /\ exists Phi ppf, normal_cdf Phi /\ quantile_of Phi ppf.
Proof. exact (conj grid_clear_1 (conj grid_clear_half normal_exists)). Qed.

(** C63: when no truncation bound is given, the part of the discrete Gaussian distribution that
    the accounting leaves out has a probability of at most 1e-30. *)
Theorem C63_mass : forall sigma G, 0 < sigma -> integer_noise (full_dgaussian_weights sigma) G ->
  let b := Rceil (11.6 * sigma) in 1 - (G (IZR b) - G (IZR (- b - 1))) <= 1 / 10 ^ 30.
Proof. exact truncated_mass. Qed.
Print Assumptions C63_mass.

(** C63: so the distribution constructed for it holds, up to 1e-30 in delta, for queries answered
    with discrete Gaussian noise that is not truncated at all. *)
Theorem C63_untruncated : forall fuel sigma s disc q dots D G, 0 < disc -> grid_clear disc q ->
  from_discrete_gaussian_mechanism fuel sigma s None true disc q dots = Ok D ->
  integer_noise (full_dgaussian_weights sigma) G ->
  forall E eps, noisy_query integer_value G q (IZR s) E -> dp_both E eps (pld_delta D (Fin eps) + 1 / 10 ^ 30).
Proof. exact untruncated_sound. Qed.
Print Assumptions C63_untruncated.
Example C63_example : exists G N D, integer_noise (full_dgaussian_weights 2) G /\ grid_clear 1 (1 / 2) /\
  from_discrete_gaussian_mechanism N 2 3 None true 1 (1 / 2) true = Ok D /\ exists E, noisy_query integer_value G (1 / 2) (IZR 3) E.
Proof. exact untruncated_example. Qed.
