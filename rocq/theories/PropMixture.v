(** C64: Gaussian noise and a random sensitivity (mixture of Gaussians). *)
From Verif Require Import Base XReal Exn TypesAdjacency ModelPld ModelMech ModelMixture SpecDP SpecMech SpecClasses SpecConstruct SpecNoiseAcc SpecMixture ProofConstructEx ProofMixPld ProofMixTotal ProofMixRef ProofMixEnd.

(** C64: privacy_loss is the logarithm of the ratio of the two densities of the pair. *)
Theorem C64_loss : forall sigma sens probs lb comps adj x,
  new_mixture sigma sens probs lb = Ok comps -> rsum (fun p => p) probs = 1 ->
  mx_loss sigma comps adj x
  = ln (mixture_upper adj (gaussian_density sigma) (combine sens probs) x / mixture_lower adj (gaussian_density sigma) (combine sens probs) x).
Proof. exact (fun sigma sens probs lb comps adj x EN HT => mixture_loss sigma sens probs lb comps EN HT adj x). Qed.
Print Assumptions C64_loss.

(** C64: get_delta_for_epsilon of a list of epsilons is the hockey-stick divergence of the pair,
    up to the error of the numerical inversion, provided that there is one positive sensitivity
    only or the list has an epsilon on the other side of 0. *)
Theorem C64_delta : forall Phi fuel sigma sens probs lb comps adj eps ds smax,
  normal_cdf Phi -> new_mixture sigma sens probs lb = Ok comps -> rsum (fun p => p) probs = 1 ->
  (forall s, In s sens -> s <= smax) ->
  one_sensitivity (combine sens probs) \/ anchored adj (positive_part (combine sens probs)) eps ->
  mx_deltas Phi fuel sigma comps adj eps = Ok ds ->
  Forall2 (fun e d => nearly_divergence (mixture_upper adj (normal_law Phi sigma) (combine sens probs))
             (mixture_lower adj (normal_law Phi sigma) (combine sens probs)) e d
             (mixture_error sigma smax (positive_part (combine sens probs)))) eps ds.
Proof. exact (fun Phi fuel sigma sens probs lb comps adj eps ds smax HPhi EN HT HM HO H => mixture_deltas Phi HPhi sigma sens probs lb comps EN HT adj fuel eps ds smax H HM HO). Qed.
Print Assumptions C64_delta.

(** C64: likewise for a single epsilon. *)
Theorem C64_delta_one : forall Phi fuel sigma sens probs lb comps adj e d smax,
  normal_cdf Phi -> new_mixture sigma sens probs lb = Ok comps -> rsum (fun p => p) probs = 1 ->
  (forall s, In s sens -> s <= smax) ->
  one_sensitivity (combine sens probs) \/ match adj with REMOVE => e <= 0 | ADD => 0 <= e end ->
  mx_delta Phi fuel sigma comps adj e = Ok d ->
  nearly_divergence (mixture_upper adj (normal_law Phi sigma) (combine sens probs))
    (mixture_lower adj (normal_law Phi sigma) (combine sens probs)) e d (mixture_error sigma smax (positive_part (combine sens probs))).
Proof. exact (fun Phi fuel sigma sens probs lb comps adj e d smax HPhi EN HT HM HO H => mixture_delta Phi HPhi sigma sens probs lb comps EN HT adj fuel e d smax H HM HO). Qed.
Print Assumptions C64_delta_one.

(** C64: it is false for a single epsilon in general: the result can be at most 1/10 where the
    divergence is at least 9/10. *)
Theorem C64_delta_one_refuted : forall Phi, normal_cdf Phi ->
  exists sigma sens probs comps eps N d,
    (forall lb, lb <= 0 -> new_mixture sigma sens probs lb = Ok comps) /\ rsum (fun p => p) probs = 1 /\
    (forall fuel, (N <= fuel)%nat -> mx_delta Phi fuel sigma comps REMOVE eps = Ok d) /\ d <= 1 / 10 /\
    exists E, mixture_query (normal_law Phi sigma) (combine sens probs) E /\ 9 / 10 <= hockey_stick E eps.
Proof. exact scalar_refuted. Qed.
Print Assumptions C64_delta_one_refuted.

(** C64: and within the tolerance of the limit of the privacy loss it raises ValueError. *)
Theorem C64_near_limit_raises : forall Phi fuel sigma sens probs lb comps adj eps,
  new_mixture sigma sens probs lb = Ok comps -> rsum (fun p => p) probs = 1 ->
  loss_possible adj (positive_part (combine sens probs)) eps -> near_end adj (positive_part (combine sens probs)) eps ->
  mx_delta Phi fuel sigma comps adj eps = Err ValueError.
Proof. exact (fun Phi fuel sigma sens probs lb comps adj eps EN HT => mixture_near_limit Phi sigma sens probs lb comps EN HT adj fuel eps). Qed.
Print Assumptions C64_near_limit_raises.

(** C64: inverse_privacy_losses returns points at which the privacy loss crosses the given
    losses, up to the precision, under the same condition on the list. *)
Theorem C64_inverse : forall fuel sigma sens probs lb comps adj ls prec xs,
  new_mixture sigma sens probs lb = Ok comps -> rsum (fun p => p) probs = 1 -> 0 < prec ->
  one_sensitivity (combine sens probs) \/ anchored adj (positive_part (combine sens probs)) ls ->
  mx_inverse_losses fuel sigma comps adj ls prec = Ok xs ->
  Forall2 (fun l x =>
    (near_end adj (positive_part (combine sens probs)) l /\ x = match adj with ADD => MInf | REMOVE => PInf end) \/
    (exists y, x = Fin y /\ mx_loss sigma comps adj (y + prec) <= l <= mx_loss sigma comps adj (y - prec))) ls xs.
Proof. exact (fun fuel sigma sens probs lb comps adj ls prec xs EN HT Hp HO H => mixture_inverse sigma sens probs lb comps EN HT adj fuel ls prec xs Hp H HO). Qed.
Print Assumptions C64_inverse.

(** C64: it is false in general: the privacy loss at the point returned can exceed the given
    loss by 500. *)
Theorem C64_inverse_refuted :
  exists sigma sens probs comps l N y,
    (forall lb, lb <= 0 -> new_mixture sigma sens probs lb = Ok comps) /\ rsum (fun p => p) probs = 1 /\
    (forall fuel, (N <= fuel)%nat -> mx_inverse_loss fuel sigma comps REMOVE l (1 / 10 ^ 6) = Ok (Fin y)) /\
    l + 500 <= mx_loss sigma comps REMOVE y.
Proof. exact inverse_refuted. Qed.
Print Assumptions C64_inverse_refuted.

(** C64: privacy_loss_tail cuts off at most half the allowed mass on either side, and not much
    less on the lower one. *)
Theorem C64_tail : forall Phi ppf fuel sigma sens probs lb comps adj pess t,
  normal_cdf Phi -> quantile_of Phi ppf -> new_mixture sigma sens probs lb = Ok comps -> rsum (fun p => p) probs = 1 ->
  mx_tail Phi ppf fuel sigma comps pess lb adj = Ok t ->
  let F := mixture_upper adj (normal_law Phi sigma) (combine sens probs) in
  F (lower_x_truncation t) <= 1 / 2 * exp lb /\ 1 / 2 * exp lb <= F (lower_x_truncation t + 1 / 10 ^ 4) /\
  1 - F (upper_x_truncation t) <= 1 / 2 * exp lb /\
  tail_masses t =
    if pess then [(PInf, F (lower_x_truncation t)); (Fin (mx_loss sigma comps adj (upper_x_truncation t)), 1 - F (upper_x_truncation t))]
    else [(Fin (mx_loss sigma comps adj (lower_x_truncation t)), F (lower_x_truncation t))].
Proof. exact (fun Phi ppf fuel sigma sens probs lb comps adj pess t HPhi HQ EN HT H => mixture_tail Phi HPhi sigma sens probs lb comps EN HT ppf HQ adj fuel pess t H). Qed.
Print Assumptions C64_tail.

(** C64, from_mixture_gaussian_mechanism with its default settings (pessimistic, connect the
    dots): the deltas of the distribution bound the privacy of every query whose shift is random
    with the given bounds and probabilities, up to the error of the numerical inversion. *)
Theorem C64_pessimistic : forall Phi ppf fuel sigma sens probs disc lb D smax E,
  normal_cdf Phi -> quantile_of Phi ppf -> 0 < disc ->
  from_mixture_gaussian_mechanism Phi ppf fuel sigma sens probs true disc lb true = Ok D ->
  rsum (fun p => p) probs = 1 -> (forall s, In s sens -> s <= smax) ->
  one_sensitivity (combine sens probs) \/ 2 / 10 ^ 8 <= positive_part (combine sens probs) ->
  mixture_query (normal_law Phi sigma) (combine sens probs) E ->
  valid E /\ forall eps, dp_both E eps (pld_delta D (Fin eps) + mixture_error sigma smax (positive_part (combine sens probs))).
Proof. exact mixture_dots_sound. Qed.
Print Assumptions C64_pessimistic.

(** C64: and it returns. *)
Theorem C64_returns : forall Phi ppf sigma sens probs comps disc lb smax,
  normal_cdf Phi -> quantile_of Phi ppf -> 0 < disc -> new_mixture sigma sens probs lb = Ok comps ->
  rsum (fun p => p) probs = 1 -> (forall s, In s sens -> s <= smax) ->
  positive_part (combine sens probs) = 1 \/
    (2 / 10 ^ 8 <= positive_part (combine sens probs) /\ 1 / 2 * exp lb <= Phi (- smax / (2 * sigma))) ->
  exists N D, forall fuel, (N <= fuel)%nat -> from_mixture_gaussian_mechanism Phi ppf fuel sigma sens probs true disc lb true = Ok D.
Proof. exact mixture_total. Qed.
Print Assumptions C64_returns.

(** C64: with use_connect_dots=False the pessimistic distribution is not pessimistic: its delta
    can be wrong by 3/4. *)
Theorem C64_buckets_refuted : forall Phi ppf, normal_cdf Phi -> quantile_of Phi ppf ->
  exists sigma sens probs disc lb N D,
    0 < disc /\ lb <= 0 /\ rsum (fun p => p) probs = 1 /\ positive_part (combine sens probs) = 1 /\
    (forall fuel, (N <= fuel)%nat -> from_mixture_gaussian_mechanism Phi ppf fuel sigma sens probs true disc lb false = Ok D) /\
    exists E eps, mixture_query (normal_law Phi sigma) (combine sens probs) E /\ ~ dp E eps (pld_delta D (Fin eps) + 3 / 4).
Proof. exact buckets_refuted. Qed.
Print Assumptions C64_buckets_refuted.

Example C64_example : exists Phi ppf lb, normal_cdf Phi /\ quantile_of Phi ppf /\ lb <= 0 /\ positive_part (combine ex_sens ex_probs) = 1 / 2 /\
  (exists fuel D, from_mixture_gaussian_mechanism Phi ppf fuel 1 ex_sens ex_probs true (1 / 10) lb true = Ok D) /\
  exists E, mixture_query (normal_law Phi 1) (combine ex_sens ex_probs) E /\ 2 <= INR (length (outs E)).
Proof. exact mixture_example. Qed.
Example C64_list_example : new_mixture 1 ex_sens ex_probs (-10) = Ok [(0, 1 / 2); (1, 1 / 4); (2, 1 / 4)] /\
  rsum (fun p => p) ex_probs = 1 /\ (forall s, In s ex_sens -> s <= 2) /\ anchored REMOVE (positive_part (combine ex_sens ex_probs)) [0; 1].
Proof. exact list_example. Qed.
(** the epsilon that is the limit of the loss, log 2 = - log (1 - 1/2), less 1/10^8 *)
Example C64_near_limit_example : let q := positive_part (combine ex_sens ex_probs) in
  loss_possible ADD q (- ln (1 - q) - 1 / 10 ^ 8) /\ near_end ADD q (- ln (1 - q) - 1 / 10 ^ 8).
Proof. exact near_limit_example. Qed.
