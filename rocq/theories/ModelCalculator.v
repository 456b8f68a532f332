(** Model of learning/clustering/privacy_calculator.py ("calc") and of the parts of
    clustering_params.py ("params") and central_privacy_utils.py ("utils") it uses.  [Phi], [ppf]
    are the normal distribution function and its inverse, [mixture_pld] the constructor for
    mixtures of Gaussians (not used here), [fast_len] scipy's next_fast_len, [brentq] scipy's
    root finder; [fuel] bounds all loops.  Only the privacy model CENTRAL exists. *)
From Verif Require Import Base XReal Exn TypesEvent TypesRelation TypesCluster ModelBuilder ModelPmf ModelPld ModelMake
  ModelMech ModelNoise ModelAccountant ModelSearch.

Section Constructors.
  Context (Phi ppf : R -> R) (mixture_pld : xr -> list xr -> list xr -> res pld) (fast_len : nat -> nat) (fuel : nat).

  (** pld_privacy_accountant.py 82-91, 135-145: the calls of [from_gaussian_mechanism], with
      default arguments except for the discretization interval and the sampling probability.
      Simplification: parameters that are not finite, which never come from this package,
      raise. *)
  Definition gaussian_pld_of (disc : R) (sigma q : xr) : res pld :=
    match sigma, q with
    | Fin s, Fin q => from_gaussian_mechanism Phi ppf fuel s 1 true disc (-50) q true
    | _, _ => Err ValueError
    end.
  (** pld_privacy_accountant.py 92-102, 146-161: the same for [from_laplace_mechanism]. *)
  Definition laplace_pld_of (disc : R) (b q : xr) : res pld :=
    match b, q with
    | Fin b, Fin q => from_laplace_mechanism fuel b 1 true disc q true
    | _, _ => Err ValueError
    end.
  (** [PLDAccountant] with these constructors. *)
  Definition pld_accountant (rel : relation) (disc : R) : bool -> pld_state -> event num -> Z -> pld_state * mc_out :=
    pld_mc (gaussian_pld_of disc) (laplace_pld_of disc) mixture_pld fast_len rel disc default_tail.
End Constructors.

(** pld_privacy_accountant.py 31-40: the default discretization interval. *)
Definition default_disc : R := 1 / 10 ^ 4.

(** params 92-101, [get_gaussian_std_dev]. *)
Definition get_gaussian_std_dev (m : multiplier) (alpha sens : R) : R := gaussian_multiplier m * alpha * sens.
(** params 102-112, [get_alpha]; an infinite standard deviation gives an infinite alpha. *)
Definition get_alpha (m : multiplier) (sd : xr) (sens : R) : res xr :=
  if Reqb (sens * gaussian_multiplier m) 0 then Err ZeroDivisionError
  else Ok (xdiv sd (Fin (sens * gaussian_multiplier m))).
(** params 114-123, [get_laplace_param]. *)
Definition get_laplace_param (m : multiplier) (alpha : R) : res xr :=
  let inverse := laplace_multiplier m * alpha in
  if Reqb inverse 0 then Err ZeroDivisionError else Ok (Fin (1 / inverse)).

(** [builder.compose(event, count)], raising. *)
Definition compose_or_raise (b : builder) (e : event num) (n : Z) : res builder :=
  let (b', r) := builder_compose b e n in let? _ := r in Ok b'.

(** calc 31-49, [make_clustering_event]; count_laplace_param is a number or inf. *)
Definition make_clustering_event (sd : R) (param : xr) (sens : R) (depth : Z) : res (event num) :=
  let b := new_builder in
  let? b :=
    if Reqb sd 0 then compose_or_raise b NonPrivate 1
    else if Reqb sens 0 then Err ZeroDivisionError
    else compose_or_raise b (Gaussian (PyFloat (sd / sens))) 1 in
  let? b :=
    match param with
    | PInf => compose_or_raise b NonPrivate 1
    | Fin p => if Reqb p 0 then Err ZeroDivisionError
               else compose_or_raise b (Laplace (PyFloat (1 / p))) (depth + 1)
    | _ => Err ValueError
    end in
  Ok (snd (builder_build b)).

(** calc 52-68, [make_clustering_event_from_param]; alpha is a finite number. *)
Definition make_clustering_event_from_param (m : multiplier) (sens : R) (depth : Z) (alpha : num) : res (event num) :=
  match nval alpha with
  | Fin alpha =>
      let? param := get_laplace_param m alpha in
      make_clustering_event (get_gaussian_std_dev m alpha sens) param sens depth
  | _ => Err ValueError
  end.

(** utils 22-39 and 70-80, the checks of AveragePrivacyParam and CountPrivacyParam. *)
Definition new_calc (sd sens : R) (param : xr) : res calculator :=
  if Rltb sd 0 then Err ValueError else
  if Rleb sens 0 then Err ValueError else
  if xleb param (Fin 0) then Err ValueError else Ok (mkCalc sd sens param).

(** The privacy budget: epsilon is a number or inf. *)
Definition nonprivate (eps : xr) (delta : R) : bool := (xeqb eps PInf || Rleb 1 delta)%bool.

Section Calculator.
  Context (Phi ppf : R -> R) (mixture_pld : xr -> list xr -> list xr -> res pld) (fast_len : nat -> nat) (fuel : nat).
  Context (brentq : (R -> res xr) -> R -> R -> R -> brent_out).

  (** pld_privacy_accountant.py 31-40, PLDAccountant(). *)
  Definition cluster_mc := pld_accountant Phi ppf mixture_pld fast_len fuel ADD_OR_REMOVE_ONE default_disc.

  (** calc 71-96, [get_alpha_interval]; LowerEndpointAndGuess(inf, inf) is rejected by the
      calibration with ValueError (mechanism_calibration.py 77-79). *)
  Definition get_alpha_interval (eps : xr) (delta radius : R) (m : multiplier) : res interval :=
    if nonprivate eps delta then Err ValueError else
    match eps with
    | Fin e =>
        let? pp := privacy_parameters e delta in
        let? sd := smallest_gaussian_noise Phi ppf fuel pp 1 radius in
        let? alpha := get_alpha m sd radius in
        match alpha with
        | Fin a => Ok (LowerAndGuess a (2 * a))
        | _ => Err ValueError
        end
    | _ => Err ValueError
    end.

  (** calc 110-156, [PrivacyCalculator.__init__]. *)
  Definition new_calculator (eps : xr) (delta radius : R) (depth : Z) (m : multiplier) : res calculator :=
    if nonprivate eps delta then new_calc 0 radius PInf else
    let? interval := get_alpha_interval eps delta radius m in
    match eps with
    | Fin e =>
        let? A0 := pld_new default_disc in
        let? alpha := calibrate cluster_mc pldacc_epsilon A0 (make_clustering_event_from_param m radius depth) brentq
                        fuel e delta interval false None in
        match nval alpha with
        | Fin a => let? param := get_laplace_param m a in new_calc (get_gaussian_std_dev m a radius) radius param
        | _ => Err ValueError
        end
    | _ => Err ValueError
    end.

  (** calc 158-190, [validate_accounting]. *)
  Definition validate_accounting (c : calculator) (eps : xr) (delta : R) (depth : Z) : res unit :=
    if nonprivate eps delta then Ok tt else
    let? e := make_clustering_event (gaussian_std_dev c) (laplace_param c) (sensitivity c) depth in
    let? A0 := pld_new default_disc in
    let (A, r) := acc_compose cluster_mc A0 (EventObj e) 1 in
    let? _ := r in
    let? accounted_eps := pldacc_epsilon (acc_state A) delta in
    let accounted_delta := pldacc_delta (acc_state A) eps in
    if (xltb eps accounted_eps || Rltb delta accounted_delta)%bool then Err ValueError else Ok tt.
End Calculator.
