(** The mean of a dataset with noise.  Nothing here refers to the code except the fields of the
    configuration. *)
From Verif Require Import Base TypesMean SpecDP SpecMech SpecRun.
Local Open Scope R_scope.

(** [p] is the integral over the line of [g], which may jump at [c]. *)
Definition integral_split (c : R) (g : R -> R) (p : R) : Prop :=
  exists G, (forall x, continuity_pt G x) /\ (forall x, x <> c -> derivable_pt_lim G x (g x))
    /\ (forall e, 0 < e -> exists m, forall x, x <= m -> Rabs (G x) <= e)
    /\ (forall e, 0 < e -> exists m, forall x, m <= x -> Rabs (G x - p) <= e).

(** Half of epsilon is for the count if it is noised at all. *)
Definition epsilon_share (c : mean_config) : R :=
  match noised_mean c, noised_scale c with false, false => mean_epsilon c | _, _ => mean_epsilon c / 2 end.
(** The sum of the clipped values, the mean if the noisy count is [k], and the scale of its noise. *)
Definition bounded (c : mean_config) (x : R) : R := Rmin (Rmax x (mean_min c)) (mean_max c).
Definition mean_given (c : mean_config) (data : list R) (k : R) : R :=
  rsum (bounded c) data / (if noised_mean c then k else INR (List.length data)).
Definition gaussian_factor (delta : R) : R := sqrt (2 * ln (5 / 4 / delta)).
Definition factor (delta : R) : R := if Reqb delta 0 then 1 else gaussian_factor delta.
Definition scale_given (c : mean_config) (data : list R) (k : R) : R :=
  Rmax (1 / 10 ^ 12) (factor (mean_delta c) * Rabs (mean_max c - mean_min c) / epsilon_share c
                      / (if noised_scale c then k else INR (List.length data))).
(** [P] is the distribution of the noisy mean: the noise of the count is Laplace, that of the value
    has the distribution [F] at scale 1. *)
Definition mean_law (F : R -> R) (c : mean_config) (data : list R) (P : R -> R) : Prop :=
  forall x, integral_split 0 (fun k => laplace_density (1 / epsilon_share c) (k - INR (List.length data))
                                       * F ((x - mean_given c data k) / scale_given c data k)) (P x).
(** A dataset and the same with one more record. *)
Definition one_added (d d' : list R) : Prop := exists l x r, d = l ++ r /\ d' = l ++ x :: r.
(** The noise of the value: Laplace if delta is 0, otherwise normal. *)
Definition noise_of (delta : R) (F : R -> R) : Prop :=
  if Reqb delta 0 then forall x, F x = laplace_law 1 x else normal_cdf F.
(** One noisy gradient step: two sums of gradients clipped to norm [clip] that differ in one record
    are [far * clip] apart at most, with [far = 2] if the record is replaced and [far = 1] if it is
    left out; the noise is normal with standard deviation [noise_multiplier * clip]. *)
Definition noisy_step (Phi : R -> R) (far noise_multiplier clip : R) (E : exper) : Prop :=
  exists u v cuts, Rabs (u - v) <= far * clip /\ StronglySorted Rlt cuts
    /\ E = observe (fun x => Phi ((x - u) / (noise_multiplier * clip))) (fun x => Phi ((x - v) / (noise_multiplier * clip))) cuts.
