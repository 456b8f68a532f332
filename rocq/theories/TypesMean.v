(** The configuration of the mean mechanism: mechanism_config.py 28-46. *)
From Verif Require Import Base.

Record mean_config := mkMean {
  mean_epsilon : R;
  mean_delta : R;
  noised_mean : bool;   (** use_noised_counts_for_calculating_mean *)
  noised_scale : bool;  (** use_noised_counts_for_calculating_noise_scale *)
  mean_max : R;
  mean_min : R }.
