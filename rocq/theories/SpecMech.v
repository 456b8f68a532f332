(** Specification vocabulary for mechanisms that add noise to a number: the distribution of
    the output is given by its cdf, and the output is observed through an arbitrary finite
    partition of the real line into half-open intervals.  Nothing here refers to the code. *)
From Coq Require Export Sorted.
From Verif Require Import Base XReal TypesAdjacency SpecDP.

(** [F] is a cumulative distribution function. *)
Definition is_cdf (F : R -> R) : Prop :=
  (forall x, 0 <= F x <= 1) /\ (forall x y, x <= y -> F x <= F y) /\
  (forall e, 0 < e -> exists x, F x < e) /\ (forall e, 0 < e -> exists x, 1 - e < F x).

(** Its values at the ends of the real line. *)
Definition at_end (F : R -> R) (x : xr) : R :=
  match x with Fin a => F a | PInf => 1 | _ => 0 end.

(** The cells (-inf, c1], (c1, c2], ..., (cn, inf). *)
Definition cells (cuts : list R) : list (xr * xr) :=
  combine (MInf :: map Fin cuts) (map Fin cuts ++ [PInf]).

(** A random number with cdf [P] on the first and [Q] on the second input, of which only the
    cell is observed. *)
Definition observe (P Q : R -> R) (cuts : list R) : exper :=
  {| outcome := xr * xr; outs := cells cuts;
     prP := fun c => at_end P (snd c) - at_end P (fst c);
     prQ := fun c => at_end Q (snd c) - at_end Q (fst c) |}.

(** The law of v + noise, and of one law with probability 1-q and another with probability q. *)
Definition add_noise (F : R -> R) (v : R) (x : R) : R := F (x - v).
Definition sampled (q : R) (P0 P1 : R -> R) (x : R) : R := (1 - q) * P0 x + q * P1 x.

(** Noise added to a query of sensitivity [s] on a random sample of the records, in which each
    record is included with probability [q]: [v] is the value of the query on the sampled
    other records, [v + d] the value if also the record in question is sampled.  First input:
    with the record; second input: without.  [ok] restricts the values (to integers, for
    integer noise). *)
Definition noisy_query (ok : R -> Prop) (F : R -> R) (q s : R) (E : exper) : Prop :=
  exists v d cuts, ok v /\ ok d /\ Rabs d <= s /\ StronglySorted Rlt cuts /\
    E = observe (sampled q (add_noise F v) (add_noise F (v + d))) (add_noise F v) cuts.

Definition any_value (v : R) : Prop := True.
Definition integer_value (v : R) : Prop := exists z, v = IZR z.

(** [delta] is the largest advantage of any event for the pair [P], [Q] at [eps]: the
    hockey-stick divergence of the two distributions. *)
Definition divergence_is (P Q : R -> R) (eps delta : R) : Prop :=
  (forall cuts, StronglySorted Rlt cuts -> hockey_stick (observe P Q cuts) eps <= delta) /\
  exists cuts, StronglySorted Rlt cuts /\ hockey_stick (observe P Q cuts) eps = delta.

(** The Laplace distribution with scale [b] (density e^(-|x|/b) / 2b). *)
Definition laplace_law (b x : R) : R :=
  if Rltb x 0 then exp (x / b) / 2 else 1 - exp (- x / b) / 2.
(** [Phi] is the standard normal distribution function: its density is proportional to
    e^(-x^2/2). *)
Definition normal_cdf (Phi : R -> R) : Prop :=
  is_cdf Phi /\ exists c, 0 < c /\ forall x, derivable_pt_lim Phi x (c * exp (- (x * x) / 2)).

(** [F] is the distribution on the integers in which the probability of [k] is proportional to
    [w k]. *)
Definition integer_noise (w : Z -> R) (F : R -> R) : Prop :=
  is_cdf F /\ (forall x, F x = F (IZR (Rfloor x))) /\
  exists c, 0 < c /\ forall k, F (IZR k) - F (IZR (k - 1)) = c * w k.
(** The weights of the discrete Laplace distribution, and of the discrete Gaussian
    distribution cut off at the distance [bound] from 0. *)
Definition dlaplace_weights (a : R) (k : Z) : R := exp (- a * Rabs (IZR k)).
Definition dgaussian_weights (sigma : R) (bound k : Z) : R :=
  if (Z.abs k <=? bound)%Z then exp (- (IZR k * IZR k) / (2 * (sigma * sigma))) else 0.

(** The pairs of distributions that the mechanism classes describe: the record shifts the
    output by -s (REMOVE: first with, then without the record) or by s (ADD: the reverse). *)
Definition remove_upper (F : R -> R) (q s : R) : R -> R := sampled q F (fun x => F (x + s)).
Definition add_lower (F : R -> R) (q s : R) : R -> R := sampled q F (fun x => F (x - s)).
Definition upper_law (adj : adjacency) (F : R -> R) (q s : R) : R -> R :=
  match adj with REMOVE => remove_upper F q s | ADD => F end.
Definition lower_law (adj : adjacency) (F : R -> R) (q s : R) : R -> R :=
  match adj with REMOVE => F | ADD => add_lower F q s end.
(** Their densities at an output, for noise with density (or, on the integers,
    probabilities) [f]; and the log-likelihood ratio of two densities at an output. *)
Definition upper_density (adj : adjacency) (f : R -> R) (q s x : R) : R :=
  match adj with REMOVE => (1 - q) * f x + q * f (x + s) | ADD => f x end.
Definition lower_density (adj : adjacency) (f : R -> R) (q s x : R) : R :=
  match adj with REMOVE => f x | ADD => (1 - q) * f x + q * f (x - s) end.
Definition log_ratio (upper lower : R) (l : xr) : Prop :=
  match l with
  | Fin a => 0 < upper /\ 0 < lower /\ a = ln (upper / lower)
  | PInf => 0 < upper /\ lower = 0
  | MInf => upper = 0 /\ 0 < lower
  | NaN => False
  end.

(** With a sampling probability below 1 the privacy loss is bounded: it exceeds log(1-q) (REMOVE)
    or is below -log(1-q) (ADD).  [near_limit]: within a relative 1e-9 of this bound. *)
Definition loss_limit (adj : adjacency) (q : R) : R :=
  match adj with REMOVE => ln (1 - q) | ADD => - ln (1 - q) end.
Definition near_limit (adj : adjacency) (q eps : R) : Prop :=
  q < 1 /\ Rabs (eps - loss_limit adj q) <= 1 / 10 ^ 9 * Rmax (Rabs eps) (Rabs (loss_limit adj q)).
(** [l] is a possible value of the privacy loss. *)
Definition loss_possible (adj : adjacency) (q l : R) : Prop :=
  q < 1 -> match adj with REMOVE => loss_limit adj q < l | ADD => l < loss_limit adj q end.
