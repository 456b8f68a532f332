(** Properties of the constructors of privacy loss distributions on every discretization grid. *)
From Verif Require Import Base XReal Exn SpecDP ModelPmf ModelPld ModelMech SpecPmf SpecPld SpecMech SpecDGauss SpecConstruct SpecAccErr
  ProofNoiseNear ProofGrid ProofGridMass ProofBucketNear ProofGridFull ProofDGaussPriv.

(** C78: whatever the discretization interval, a pessimistic distribution of any of the four
    constructors bounds every query of the given sensitivity, up to an error of about
    2e-9 |log(1-q)| and, for privacy buckets, of half an interval. *)
Theorem C78_within : forall fuel dots disc q D ok F s,
  0 < disc ->
  from_mechanism fuel true dots disc q (Ok D) ok F s ->
  forall E, noisy_query ok F q s E ->
  pld_within ((if Rltb q 1 then near_error q else 0) + (if dots then 0 else (1 - exp (- disc)) / 2)) D E.
Proof. exact every_within. Qed.
Print Assumptions C78_within.

(** C78: the second error is for continuous noise only; without it the distribution is also a
    sound one, with probabilities that are not negative. *)
Theorem C78_sound : forall fuel dots disc q D ok F s,
  0 < disc ->
  from_mechanism fuel true dots disc q (Ok D) ok F s ->
  dots = true \/ ok = integer_value ->
  sound_pld D /\
  forall E, noisy_query ok F q s E -> pld_within (if Rltb q 1 then near_error q else 0) D E.
Proof. exact constructed_within. Qed.
Print Assumptions C78_sound.

(** C78: Gaussian noise does not need it either. *)
Theorem C78_gaussian_buckets : forall Phi ppf fuel sigma s disc log_bound q D,
  normal_cdf Phi -> quantile_of Phi ppf -> 0 < disc ->
  from_gaussian_mechanism Phi ppf fuel sigma s true disc log_bound q false = Ok D ->
  forall E, noisy_query any_value (fun x => Phi (x / sigma)) q s E ->
  pld_within (if Rltb q 1 then near_error q else 0) D E.
Proof. exact gaussian_every. Qed.
Print Assumptions C78_gaussian_buckets.

(** Cases with a grid point next to the limit of the privacy loss. *)
Example C78_buckets_example : exists Phi ppf N D1 D2, normal_cdf Phi /\ quantile_of Phi ppf /\ ~ grid_clear bad_disc (1/2) /\
  from_gaussian_mechanism Phi ppf N 3 4 true bad_disc (-50) (1/2) false = Ok D1 /\
  from_mechanism N true false bad_disc (1/2) (Ok D2) any_value (laplace_law 1) 80 /\
  (exists E, noisy_query any_value (fun x => Phi (x / 3)) (1/2) 4 E) /\ exists E, noisy_query any_value (laplace_law 1) (1/2) 80 E.
Proof. exact near_cases. Qed.

(** C78: for Laplace noise it cannot be smaller. *)
Theorem C78_buckets_tight : exists disc N D, 0 < disc < 1 / 10000 /\
  (forall fuel, (N <= fuel)%nat -> from_laplace_mechanism fuel 1 80 true disc (1/2) false = Ok D) /\
  (exists E, noisy_query any_value (laplace_law 1) (1/2) 80 E) /\
  forall E err, noisy_query any_value (laplace_law 1) (1/2) 80 E -> pld_within err D E -> (1 - exp (- disc)) / 2 <= err.
Proof. exact buckets_error_least. Qed.
Print Assumptions C78_buckets_tight.

(** C78: for integer noise privacy buckets have no error at all. *)
Theorem C78_integer_buckets : forall fuel disc q D F s,
  0 < disc ->
  from_mechanism fuel true false disc q (Ok D) integer_value F s ->
  sound_pld D /\ forall E, noisy_query integer_value F q s E -> pld_bounds D E.
Proof. exact integer_buckets_sound. Qed.
Print Assumptions C78_integer_buckets.

(** A case with a grid point next to the limit of the privacy loss. *)
Example C78_example : exists N D F, ~ grid_clear bad_disc (1/2) /\
  from_mechanism N true false bad_disc (1/2) (Ok D) integer_value F 3 /\ exists E, noisy_query integer_value F (1/2) 3 E.
Proof. exact grid_integer. Qed.

(** C78, what is false: valid parameters for which the default construction raises an exception,
    however long it may run. *)
Theorem C78_raises_refuted : exists disc, 0 < disc < 1 / 10000 /\
  forall fuel, from_laplace_mechanism fuel 1 80 true disc (1/2) true = Err ValueError.
Proof. exact (ex_intro _ bad_disc (conj bad_disc_pos grid_raises)). Qed.
Print Assumptions C78_raises_refuted.

(** C78, what is false: an optimistic distribution may report a delta above 1. *)
Theorem C78_mass_refuted : forall dots, exists disc N D eps, 0 < disc < 1 / 10000 /\
  (forall fuel, (N <= fuel)%nat -> from_laplace_mechanism fuel 1 80 false disc (1/2) dots = Ok D) /\
  6 / 5 < pld_delta D (Fin eps).
Proof. exact grid_mass_at. Qed.
Print Assumptions C78_mass_refuted.

(** C78, what is false: the privacy buckets for adding a record may have a negative probability,
    so the delta of this direction is negative, by as much as C78_within allows. *)
Theorem C78_negative_refuted : exists disc N D eps, 0 < disc < 1 / 10000 /\
  (forall fuel, (N <= fuel)%nat -> from_laplace_mechanism fuel 1 80 true disc (1/2) false = Ok D) /\
  pmf_delta (pmf_add D) (Fin eps) = - ((1 - exp (- disc)) / 2).
Proof. exact grid_negative_at. Qed.
Print Assumptions C78_negative_refuted.

(** C63 on every grid: discrete Gaussian noise that is not truncated, with the error of the
    connect-the-dots construction, or with none for privacy buckets. *)
Theorem C63_every_grid : forall fuel sigma s disc q dots D G, 0 < disc ->
  from_discrete_gaussian_mechanism fuel sigma s None true disc q dots = Ok D ->
  integer_noise (full_dgaussian_weights sigma) G ->
  forall E eps, noisy_query integer_value G q (IZR s) E ->
  dp_both E eps (pld_delta D (Fin eps) + (if dots then if Rltb q 1 then near_error q else 0 else 0) + 1 / 10 ^ 30).
Proof. exact untruncated_grid. Qed.
Print Assumptions C63_every_grid.
Example C63_grid_example : exists G N D, integer_noise (full_dgaussian_weights 2) G /\ ~ grid_clear bad_disc (1/2) /\
  from_discrete_gaussian_mechanism N 2 3 None true bad_disc (1/2) false = Ok D /\ exists E, noisy_query integer_value G (1/2) (IZR 3) E.
Proof. exact untruncated_grid_example. Qed.
