(** Specification vocabulary: the discrete Gaussian distribution on all integers, without any
    truncation.  Nothing here refers to the code. *)
From Verif Require Import Base XReal SpecMech.

(** The weight of an integer. *)
Definition full_dgaussian_weights (sigma : R) (k : Z) : R := exp (- (IZR k * IZR k) / (2 * (sigma * sigma))).
