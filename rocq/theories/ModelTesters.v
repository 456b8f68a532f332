(** Model of dp_auditorium/testers: divergence_tester.py ("div"), hockey_stick_tester.py ("hs"),
    renyi_tester.py ("renyi"), mmd_tester.py ("mmd") and property_tester_utils.py ("utils").
    Floats are reals, infinities or NaN; the rounding of finite results is idealised away. *)
From Verif Require Import Base Exn XReal TypesAudit ModelAudit TypesTesters.

(** * numpy on special values *)
Definition x_log (x : xr) : xr :=
  match x with
  | Fin a => if Rltb 0 a then Fin (ln a) else if Reqb a 0 then MInf else NaN
  | PInf => PInf | _ => NaN
  end.
Definition x_sqrt (x : xr) : xr :=
  match x with
  | Fin a => if Rltb a 0 then NaN else Fin (sqrt a)
  | PInf => PInf | _ => NaN
  end.
(** Python's max(a, b). *)
Definition py_max (a b : xr) : xr := if xltb a b then b else a.
(** A Python float divided by another, where zero raises. *)
Definition py_div (a b : R) : res R := if Reqb b 0 then Err ZeroDivisionError else Ok (a / b).

(** * Validation *)
(** Python's "not x or x <= 0". *)
Definition not_positive (x : option R) : bool :=
  match x with None => true | Some x => Reqb x 0 || Rleb x 0 end.
(** utils 51-71, [validate_training_config]; returns the output bound. *)
Definition validate_training (c : training_config) : res R :=
  if not_positive (learning_rate c) then Err ValueError
  else if not_positive (option_map IZR (training_epochs c)) then Err ValueError
  else if not_positive (option_map IZR (batch_size c)) then Err ValueError
  else match output_bound c with
       | None => Err ValueError
       | Some b => if Reqb b 0 || Rleb b 0 then Err ValueError else Ok b
       end.
(** utils 82-99, [validate_approximate_dp_property]; returns epsilon and delta. *)
Definition validate_approximate (a : approximate_dp) : res (R * R) :=
  let? e := validate_epsilon (a_epsilon a) in
  match a_delta a with
  | None => Err ValueError
  | Some d => if Rltb d 0 then Err ValueError else Ok (e, d)
  end.
(** utils 102-111, [validate_pure_dp_property]. *)
Definition validate_pure (p : pure_dp) : res R := validate_epsilon (p_epsilon p).
(** utils 114-132, [validate_renyi_dp_property]; returns epsilon and alpha. *)
Definition validate_renyi (p : renyi_dp) : res (R * R) :=
  let? e := validate_epsilon (r_epsilon p) in
  match r_alpha p with
  | None => Err ValueError
  | Some a => if Reqb a 0 then Err ValueError else if Rleb a 1 then Err ValueError else Ok (e, a)
  end.
(** configs/privacy_property.py 62-74, PrivacyProperty.__post_init__. *)
Definition is_some {A} (o : option A) : nat := match o with Some _ => 1 | None => 0 end.
Definition new_property (p : option pure_dp) (r : option renyi_dp) (a : option approximate_dp) : res privacy_property :=
  if (is_some p + is_some r + is_some a =? 1)%nat then Ok (mkProperty p r a) else Err ValueError.

(** utils 24-48, [split_train_test_samples]: an empty array passes. *)
Definition split_samples {A} (samples : list A) : res (list A * list A) :=
  let n := List.length samples in
  if (n =? 1)%nat then Err ValueError
  else Ok (firstn (n / 2) samples, skipn (n / 2) samples).

(** * Testers that train a model *)
(** div 89-118, [estimate_lower_bound].  [fit] trains the model; it may keep a state (weights,
    the optimizer, random numbers) and may raise.  [compute] evaluates the model. *)
Definition divergence_estimate {A M W} (fit : list A -> list A -> W -> res (M * W))
    (compute : M -> list A -> list A -> R -> res xr) (samples1 samples2 : list A) (failure : R) (w : W) : res (xr * W) :=
  let? (train1, test1) := split_samples samples1 in
  let? (train2, test2) := split_samples samples2 in
  let? (model, w) := fit train1 train2 w in
  let? d := compute model test1 test2 failure in
  Ok (d, w).
(** div 122-123, [reject_property]. *)
Definition exceeds (threshold : R) (lower_bound : xr) : bool := xltb (Fin threshold) lower_bound.

(** ** The hockey-stick tester *)
(** hs 96-130, the constructor: the output bound is overwritten with 1. *)
Definition new_hockey (c : hockey_config) : res hockey_tester :=
  let? (e, d) := validate_approximate (hc_approximate c) in
  let t := hc_training c in
  let? b := validate_training (mkTraining (training_epochs t) (batch_size t) (learning_rate t) (Some 1)) in
  Ok (mkHockey e d b).
(** hs 53-70, [_get_accuracy_confidence_bound]. *)
Definition confidence_bound (range : R) (n : nat) (confidence : R) : res xr :=
  let? q := py_div 1 (1 - confidence) in
  Ok (xmul (Fin range) (x_sqrt (xdiv (xdiv (x_log (Fin q)) (Fin 2)) (Fin (INR n))))).
(** hs 141-182, [_generate_inputs_to_model]: features with labels ([true] is 1).  All samples have
    the same rank, so the ValueError cannot arise; int() of a non-negative float is its floor. *)
Definition cutoff (eps : R) : R := 1 / (exp eps + 1).
Definition model_inputs {A} (eps : R) (samples1 samples2 : list A) : list (A * bool) :=
  let i1 := Z.to_nat (Rfloor (cutoff eps * INR (List.length samples1))) in
  let i2 := Z.to_nat (Rfloor (cutoff eps * INR (List.length samples2))) in
  map (fun a => (a, false)) (firstn i1 samples1) ++ map (fun a => (a, true)) (skipn i2 samples2).
(** hs 196, 223-225: BinaryAccuracy(threshold=0.0), the fraction of the features for which
    "output > 0" is the label; keras raises when there are no features. *)
Definition binary_accuracy {A} (model : A -> R) (inputs : list (A * bool)) : res R :=
  match inputs with
  | [] => Err ValueError
  | _ :: _ => Ok (rsum (fun i => if Bool.eqb (Rltb 0 (model (fst i))) (snd i) then 1 else 0) inputs / INR (List.length inputs))
  end.
(** hs 214-240, [_compute_divergence_on_samples]. *)
Definition hockey_compute {A} (t : hockey_tester) (model : A -> R) (samples1 samples2 : list A) (failure : R) : res xr :=
  let? accuracy := binary_accuracy model (model_inputs (hs_epsilon t) samples1 samples2) in
  let n := Nat.min (List.length samples1) (List.length samples2) in
  let? err := confidence_bound (hs_bound t) n (1 - failure) in
  Ok (xsub (xmul (xsub (Fin accuracy) err) (Fin (1 + exp (hs_epsilon t)))) (Fin (exp (hs_epsilon t)))).
(** hs 185-211, [_get_optimized_divergence_estimation_model]: [keras] compiles and trains a clone
    of the base model on the labelled features. *)
Definition hockey_fit {A W} (keras : list (A * bool) -> W -> res ((A -> R) * W)) (t : hockey_tester)
    (train1 train2 : list A) (w : W) : res ((A -> R) * W) :=
  keras (model_inputs (hs_epsilon t) train1 train2) w.
(** The tester: hs 73 with div 89-123 and hs 133-134. *)
Definition hockey_estimate {A W} (keras : list (A * bool) -> W -> res ((A -> R) * W)) (t : hockey_tester) :=
  divergence_estimate (hockey_fit keras t) (hockey_compute (A := A) t).
Definition hockey_reject (t : hockey_tester) : xr -> bool := exceeds (hs_delta t).

(** ** The Renyi tester *)
(** renyi 131-188, the constructor. *)
Definition new_renyi (c : renyi_config) : res renyi_tester :=
  let? (eps, alpha, renyi) :=
    match prop_renyi (rc_property c), prop_pure (rc_property c) with
    | Some r, _ => let? (e, a) := validate_renyi r in
                   if Reqb (rc_alpha c) a then Ok (e, a, true) else Err ValueError
    | None, Some p => let? e := validate_pure p in Ok (e, rc_alpha c, false)
    | None, None => Err ValueError
    end in
  let? b := validate_training (rc_training c) in
  Ok (mkRenyi alpha (if (renyi : bool) then eps else Rmin eps (2 * alpha * (eps * eps))) b).
(** renyi 39-68, [_compute_error_from_samples]. *)
Definition renyi_error (n : nat) (failure bound alpha : R) : res xr :=
  let? q := py_div 2 failure in
  let l := x_log (Fin q) in
  let error_1 := x_sqrt (xdiv (xmul (xmul (Fin 3) l) (Fin (exp (2 * (alpha - 1) * bound)))) (Fin (INR n))) in
  let error_2 := x_sqrt (xdiv (xmul (xmul (Fin 2) l) (Fin (exp (2 * alpha * bound)))) (Fin (INR n))) in
  let gamma := py_max error_1 error_2 in
  Ok (x_log (xdiv (xadd (Fin 1) gamma) (xsub (Fin 1) gamma))).
(** tf.math.reduce_mean, which is NaN for an empty tensor. *)
Definition reduce_mean {A} (f : A -> R) (l : list A) : xr := xdiv (Fin (rsum f l)) (Fin (INR (List.length l))).
(** renyi 91-118, RenyiModel.call; [nn] is the network with its last layer, renyi 178-181, which
    scales the hyperbolic tangent of the output of the base model. *)
Definition scaled_tanh (bound x : R) : R := bound * tanh x.
Definition renyi_call {A} (alpha : R) (nn : A -> R) (samples1 samples2 : list A) : res xr :=
  let t1 := reduce_mean (fun a => exp ((alpha - 1) * nn a)) samples1 in
  let t2 := reduce_mean (fun a => exp (alpha * nn a)) samples2 in
  let? k := py_div alpha (alpha - 1) in
  Ok (xsub (xmul (Fin k) (x_log t1)) (x_log t2)).
(** renyi 225-244, [_compute_divergence_on_samples]; [base] is the trained base model. *)
Definition renyi_compute {A} (t : renyi_tester) (base : A -> R) (samples1 samples2 : list A) (failure : R) : res xr :=
  let? d := renyi_call (rt_alpha t) (fun a => scaled_tanh (rt_bound t) (base a)) samples1 samples2 in
  let n := Nat.min (List.length samples1) (List.length samples2) in
  let? err := renyi_error n failure (rt_bound t) (rt_alpha t) in
  Ok (xsub d err).
(** The tester: renyi 121 with div 89-123 and renyi 192-193; [keras] is renyi 209-222, which resets
    the weights and trains the model. *)
Definition renyi_estimate {A W} (keras : list A -> list A -> W -> res ((A -> R) * W)) (t : renyi_tester) :=
  divergence_estimate keras (renyi_compute (A := A) t).
Definition renyi_reject (t : renyi_tester) : xr -> bool := exceeds (rt_threshold t).

(** * The tester of the maximum mean discrepancy *)
(** mmd 42-67, the constructor. *)
Definition new_mmd (c : mmd_config) : res mmd_tester :=
  let? (e, d) := validate_approximate (mc_approximate c) in
  match mc_kernel c with
  | KERNEL_UNSPECIFIED => Err ValueError
  | k => Ok (mkMmd k (mc_bandwidth c) e d)
  end.
(** mmd 58-65, the kernels; a sample is a vector, and all have the same dimension. *)
Definition vsub (x y : list R) : list R := map (fun p => fst p - snd p) (combine x y).
Definition norm_2 (v : list R) : R := sqrt (rsum (fun x => x * x) v).
Definition norm_1 (v : list R) : R := rsum Rabs v.
Definition kernel (t : mmd_tester) (x y : list R) : R :=
  match mt_kernel t with
  | KERNEL_LAPLACIAN => exp (- mt_bandwidth t * norm_1 (vsub x y))
  | _ => exp (- mt_bandwidth t * norm_2 (vsub x y) ^ 2)
  end.
(** mmd 112-115. *)
Definition pairwise {A} (k : A -> A -> R) (q : A * A * (A * A)) : R :=
  let '(xa, xb, (ya, yb)) := q in k xa xb - 2 * k xa ya + k ya yb.
(** zip of four arrays. *)
Definition zip4 {A} (xa xb ya yb : list A) : list (A * A * (A * A)) := combine (combine xa xb) (combine ya yb).
(** mmd 130-138, the two tolerances. *)
Definition mmd_tolerances (n : nat) (variance failure : R) : res (xr * xr) :=
  let? q1 := py_div 1 failure in
  let tol0 := x_sqrt (xdiv (xmul (Fin 8) (x_log (Fin q1))) (Fin (INR n))) in
  let? q2 := py_div 2 failure in
  let l := x_log (Fin q2) in
  let tol1 := xadd (x_sqrt (xdiv (xmul (Fin (2 * variance)) l) (Fin (INR n))))
                   (xdiv (xmul (Fin 28) l) (Fin (3 * (INR n - 1)))) in
  Ok (tol0, tol1).
(** mmd 140-154, the lower bound on delta for a tolerance. *)
Definition mmd_delta (eps mean : R) (tol : xr) : xr :=
  let exp_eps_minus_one := exp eps - 1 in
  let exp_eps_minus_expinv_eps := exp eps - exp (- eps) in
  let one_plus_expinv_eps := 1 + exp (- eps) in
  let inner := xadd (Fin (exp_eps_minus_expinv_eps ^ 2))
                 (xmul (Fin one_plus_expinv_eps) (xsub (xsub (Fin mean) tol) (Fin (exp_eps_minus_one ^ 2)))) in
  xdiv (xsub (x_sqrt (py_max (Fin 0) inner)) (Fin exp_eps_minus_expinv_eps)) (Fin one_plus_expinv_eps).
(** mmd 74-157, [estimate_lower_bound], for any kernel; the division of the total by the number of
    samples raises when there are none. *)
Definition mmd_estimate_with {A} (k : A -> A -> R) (eps : R) (samples1 samples2 : list A) (failure : R) : res xr :=
  let? (xa, xb) := split_samples samples1 in
  let? (ya, yb) := split_samples samples2 in
  let n := Nat.min (Nat.min (List.length xa) (List.length xb)) (Nat.min (List.length ya) (List.length yb)) in
  let quads := zip4 xa xb ya yb in
  let total := rsum (pairwise k) quads in
  let total_squares := rsum (fun q => pairwise k q ^ 2) quads in
  let? mean := py_div total (INR n) in
  let v := total_squares / INR n - mean ^ 2 in
  let variance := if Rltb 0 v then v else 0 in
  let? (tol0, tol1) := mmd_tolerances n variance failure in
  Ok (py_max (mmd_delta eps mean tol0) (mmd_delta eps mean tol1)).
Definition mmd_estimate (t : mmd_tester) : list (list R) -> list (list R) -> R -> res xr :=
  mmd_estimate_with (kernel t) (mt_epsilon t).
(** mmd 159-161, [reject_property]. *)
Definition mmd_reject (t : mmd_tester) : xr -> bool := exceeds (mt_delta t).
