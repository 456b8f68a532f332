(** Specification vocabulary for privacy loss distributions constructed from a pair of
    distributions. *)
From Verif Require Import Base XReal Exn SpecDP ModelPmf ModelPld SpecMech ModelMech.

(** The privacy curve of the pmf is above (below) the one of the pair [P], [Q]: at every
    epsilon, its delta is at least (at most) the hockey-stick divergence. *)
Definition curve_above (p : pmf) (P Q : R -> R) : Prop :=
  forall eps delta, divergence_is P Q eps delta -> delta <= pmf_delta p (Fin eps).
Definition curve_below (p : pmf) (P Q : R -> R) : Prop :=
  forall eps delta, divergence_is P Q eps delta -> pmf_delta p (Fin eps) <= delta.

(** No multiple of the discretization interval falls in the range of [near_limit]. *)
Definition grid_clear (disc q : R) : Prop := forall adj z, ~ near_limit adj q (IZR z * disc).

(** [ppf] inverts the distribution function [Phi] on the probabilities. *)
Definition quantile_of (Phi ppf : R -> R) : Prop := forall u, 0 < u < 1 -> Phi (ppf u) = u.

(** A call of one of the four constructors from a mechanism, with the law [F] of its noise,
    the values [ok] it can protect, the sensitivity [s], the sampling probability [q], the
    discretization interval [disc], connect-the-dots ([dots], only when rounding up) or privacy
    buckets, and rounding up ([pess]) or down;
    [r] is what the call returns (or raises) if the loops may run for [fuel] rounds. *)
Inductive from_mechanism (fuel : nat) (pess dots : bool) (disc q : R) (r : res pld) : (R -> Prop) -> (R -> R) -> R -> Prop :=
| by_laplace b s :
    0 < b -> 0 < s ->
    from_laplace_mechanism fuel b s pess disc q dots = r ->
    from_mechanism fuel pess dots disc q r any_value (laplace_law b) s
| by_gaussian Phi ppf sigma s log_bound :
    normal_cdf Phi -> quantile_of Phi ppf -> 0 < sigma -> 0 < s -> log_bound <= 0 ->
    from_gaussian_mechanism Phi ppf fuel sigma s pess disc log_bound q dots = r ->
    from_mechanism fuel pess dots disc q r any_value (fun x => Phi (x / sigma)) s
| by_discrete_laplace a s F :
    integer_noise (dlaplace_weights a) F -> 0 < a -> (0 < s)%Z ->
    from_discrete_laplace_mechanism fuel a s pess disc q dots = r ->
    from_mechanism fuel pess dots disc q r integer_value F (IZR s)
| by_discrete_gaussian sigma s bound F :
    integer_noise (dgaussian_weights sigma (default_bound sigma bound)) F ->
    0 < sigma -> (0 < s <= 2 * default_bound sigma bound)%Z ->
    from_discrete_gaussian_mechanism fuel sigma s bound pess disc q dots = r ->
    from_mechanism fuel pess dots disc q r integer_value F (IZR s).

(** [d] is the smallest delta for which every noisy query is (eps, d)-private, in both
    directions: all of them are, and the divergence of one of them is [d]. *)
Definition worst_delta (ok : R -> Prop) (F : R -> R) (q s eps d : R) : Prop :=
  (forall E, noisy_query ok F q s E -> dp_both E eps d) /\
  exists E, noisy_query ok F q s E /\ (hockey_stick E eps = d \/ hockey_stick (swap E) eps = d).
