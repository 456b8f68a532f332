(** Specification vocabulary for mixtures of Gaussians.  Nothing here refers to the code. *)
From Verif Require Import Base XReal TypesAdjacency SpecDP SpecMech.

(** The law of noise [F] plus a random shift: [(d, p)] in [ws] means that the shift is [d] with
    probability [p].  With [F] a density it is the density of the sum. *)
Definition mixed (F : R -> R) (ws : list (R * R)) (x : R) : R := rsum (fun w => snd w * F (x - fst w)) ws.

(** The sensitivities and their probabilities: [(s, p)] in [comps] means sensitivity [s] with
    probability [p]. *)
Definition mixture (comps : list (R * R)) : Prop :=
  (forall c, In c comps -> 0 <= fst c /\ 0 <= snd c) /\ rsum snd comps = 1.

(** A query with noise [F] whose random sensitivity is described by [comps]: [v] is the answer
    without the record, and with it the answer is shifted by some [d], at most [s] in absolute
    value, with probability [p], for each [(s, p)]. *)
Definition mixture_query (F : R -> R) (comps : list (R * R)) (E : exper) : Prop :=
  exists v ds cuts, Forall2 (fun d c => Rabs d <= fst c) ds comps /\ StronglySorted Rlt cuts /\
    E = observe (fun x => mixed F (combine ds (map snd comps)) (x - v)) (add_noise F v) cuts.

(** The pair of laws (or densities) that the class describes. *)
Definition minus_shift (comps : list (R * R)) : list (R * R) := map (fun c => (- fst c, snd c)) comps.
Definition mixture_upper (adj : adjacency) (F : R -> R) (comps : list (R * R)) : R -> R :=
  match adj with REMOVE => mixed F (minus_shift comps) | ADD => F end.
Definition mixture_lower (adj : adjacency) (F : R -> R) (comps : list (R * R)) : R -> R :=
  match adj with REMOVE => F | ADD => mixed F comps end.

(** [d] is at most the hockey-stick divergence of [P] and [Q] at [eps], and short of it by at most [err]. *)
Definition nearly_divergence (P Q : R -> R) (eps d err : R) : Prop :=
  (forall cuts, StronglySorted Rlt cuts -> hockey_stick (observe P Q cuts) eps <= d + err) /\
  (exists cuts, StronglySorted Rlt cuts /\ d <= hockey_stick (observe P Q cuts) eps).

(** The total probability of a positive sensitivity. *)
Definition positive_part (comps : list (R * R)) : R := rsum snd (filter (fun c => Rltb 0 (fst c)) comps).
(** The error of the numerical inversion: cutoffs are exact up to 1e-6, and epsilons within
    1e-8 + 1e-5 |log(1-q)| of the extreme privacy loss log(1-q) are treated as this loss. *)
Definition cutoff_error (sigma smax : R) : R := (exp (smax * (1 / 10 ^ 6) / (sigma * sigma)) - 1) * (1 / 10 ^ 6 / sigma).
Definition limit_error (q : R) : R := if Rltb q 1 then exp (1 / 10 ^ 8 + 1 / 10 ^ 5 * Rabs (ln (1 - q))) - 1 else 0.
Definition mixture_error (sigma smax q : R) : R := Rmax (cutoff_error sigma smax) (limit_error q).

(** Epsilons that are possible values of the privacy loss and not within this distance of its limit. *)
Definition near_end (adj : adjacency) (q eps : R) : Prop :=
  q < 1 /\ Rabs (eps - loss_limit adj q) <= 1 / 10 ^ 8 + 1 / 10 ^ 5 * Rabs (loss_limit adj q).
Definition proper_epsilon (adj : adjacency) (q eps : R) : Prop := loss_possible adj q eps /\ ~ near_end adj q eps.
(** A list of epsilons on one side of 0 only is not enough: it needs one at most 0 (REMOVE), or
    at least 0 (ADD). *)
Definition anchored (adj : adjacency) (q : R) (eps : list R) : Prop :=
  exists e, In e eps /\ proper_epsilon adj q e /\ match adj with REMOVE => e <= 0 | ADD => 0 <= e end.
(** There is only one positive sensitivity. *)
Definition one_sensitivity (comps : list (R * R)) : Prop :=
  forall c c', In c comps -> In c' comps -> 0 < fst c -> 0 < fst c' -> fst c = fst c'.
(** The density of Gaussian noise, up to a constant factor. *)
Definition gaussian_density (sigma x : R) : R := exp (- (x * x) / (2 * (sigma * sigma))).
