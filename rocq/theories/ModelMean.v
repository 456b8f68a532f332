(** Model of dp_auditorium/mechanisms/mean.py ("mean") and mechanisms_utils.py ("utils").  Floats
    are extended reals without rounding; the dataset is a list of numbers; the random numbers, for
    location 0 and scale 1, are arguments. *)
From Coq Require Import String.
From Verif Require Import Base Exn XReal TypesMean ModelSvt.
Local Open Scope R_scope.

(** mean 22: _ZERO_TOLERANCE. *)
Definition zero_tolerance : R := 1 / 10 ^ 12.
(** mean 46-54: the share of epsilon for the count and for the value, if the count is noised. *)
Definition budget_scale (c : mean_config) : R := if (noised_mean c || noised_scale c)%bool then 1 / 2 else 1.
(** np.maximum, which propagates NaN. *)
Definition np_maximum (x y : xr) : xr :=
  match x, y with NaN, _ | _, NaN => NaN | _, _ => if xltb x y then y else x end.
(** mean 55-62: the factor of the noise scale; delta = 0 selects Laplace noise, any other delta
    normal noise.  np.log and np.sqrt give NaN outside their domains. *)
Definition noise_factor (c : mean_config) : xr :=
  if Reqb (mean_delta c) 0 then Fin 1
  else if Rltb (mean_delta c) 0 then NaN
  else if Rltb (2 * ln (5 / 4 / mean_delta c)) 0 then NaN
  else Fin (sqrt (2 * ln (5 / 4 / mean_delta c))).

Section Call.
  (** The Laplace noise of the count, and the noise of the value, of sample i. *)
  Context (count_noise value_noise : nat -> R).

  (** mean 64-92, [_get_counts]: per sample, the counts for the mean and for the noise scale.
      Generator.laplace raises for a negative scale. *)
  Definition get_counts (c : mean_config) (data : list R) (num_samples : nat) : res (list (R * R)) :=
    if Reqb (mean_epsilon c) 0 then Err ZeroDivisionError
    else
      let s := 1 / budget_scale c / mean_epsilon c in
      if Rltb s 0 then Err ValueError
      else Ok (map (fun i =>
        let noisy := INR (List.length data) + s * count_noise i in
        (if noised_mean c then noisy else INR (List.length data),
         if noised_scale c then noisy else INR (List.length data))) (seq 0 num_samples)).

  (** mean 94-110, [__call__].  The divisions by the counts are numpy's. *)
  Definition mean_call (c : mean_config) (data : list R) (num_samples : nat) : res (list xr) :=
    let clipped := map (clip (mean_min c) (mean_max c)) data in
    let? counts := get_counts c clipped num_samples in
    let value_sum := rsum (fun x => x) clipped in
    Ok (map (fun ik =>
      let '(i, (count_for_mean, count_for_scale)) := ik in
      let scale := xdiv (xdiv (xdiv (xmul (noise_factor c) (Fin (Rabs (mean_max c - mean_min c)))) (Fin (budget_scale c)))
                         (Fin (mean_epsilon c))) (Fin count_for_scale) in
      xadd (xdiv (Fin value_sum) (Fin count_for_mean)) (xmul (np_maximum (Fin zero_tolerance) scale) (Fin (value_noise i))))
      (combine (seq 0 num_samples) counts)).
End Call.

(** utils 42-77, [default_mean_mechanism_config_generator]. *)
Definition default_mean_config (mechanism_name : string) (epsilon delta : R) : res mean_config :=
  if String.eqb mechanism_name "non_private_mean_v1" then Ok (mkMean epsilon delta false false 1 0)
  else if String.eqb mechanism_name "non_private_mean_v2" then Ok (mkMean epsilon delta false true 1 0)
  else if String.eqb mechanism_name "private_mean" then Ok (mkMean epsilon delta true true 1 0)
  else Err AttributeError.
(** utils 19-39, [get_wrong_one_step_gd_budget]. *)
Definition wrong_one_step_gd_budget (noise_multiplier alpha : R) : res R :=
  if Reqb (2 * noise_multiplier ^ 2) 0 then Err ZeroDivisionError else Ok (alpha / (2 * noise_multiplier ^ 2)).
