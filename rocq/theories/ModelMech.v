(** Model of python/dp_accounting/dp_accounting/pld/privacy_loss_mechanism.py ("plm"):
    the additive noise mechanisms, and of the constructors of
    python/dp_accounting/dp_accounting/pld/privacy_loss_distribution.py ("pld") that use
    them.  Points and privacy losses are floats ([xr]); scipy's cdf and logcdf are exact. *)
From Verif Require Import Base XReal Exn PyDict TypesAdjacency ModelPmf ModelPld ModelMake ModelRdp ModelLog ModelSearch.

(** plm 55-77, [TailPrivacyLossDistribution]; the dict of tail masses is an association list. *)
Record tail_pld := mkTail { lower_x_truncation : R; upper_x_truncation : R; tail_masses : list (xr * R) }.
(** plm 80-100, [ConnectDotsBounds]: epsilons for continuous noise, points for discrete noise. *)
Inductive dots_bounds := EpsilonBounds (upper lower : xr) | PointBounds (lower upper : Z).

(** plm 103-221, the interface [MonotonePrivacyLoss]. *)
Record monotone := mkMonotone {
  is_discrete : bool;
  mu_upper_cdf : xr -> R;
  get_delta_for_epsilon : R -> res xr;
  privacy_loss : xr -> res xr;
  inverse_privacy_loss : xr -> res xr;
  privacy_loss_tail : res tail_pld;
  connect_dots_bounds : res dots_bounds }.

(** Python's [{k1: v1, k2: v2}]: an equal second key overwrites the value. *)
Definition dict2 (k1 : xr) (v1 : R) (k2 : xr) (v2 : R) : list (xr * R) :=
  if xeqb k1 k2 then [(k1, v2)] else [(k1, v1); (k2, v2)].

(** Python's [math.isclose] with the default relative tolerance 1e-9. *)
Definition isclose (x y : xr) : bool :=
  match x, y with
  | Fin a, Fin b => Rleb (Rabs (a - b)) (1 / 10 ^ 9 * Rmax (Rabs a) (Rabs b))
  | PInf, PInf | MInf, MInf => true
  | _, _ => false
  end.

Section Additive.
  (** plm 224-277: the noise. [cdf] is noise_cdf; loss0, inverse0 are the
      methods *_without_subsampling of the subclass. *)
  Variables (sens q : R) (adj : adjacency) (cdf : xr -> R) (loss0 inverse0 : xr -> res xr).

  (** plm 284-289, checks of __init__ *)
  Definition check_additive : res unit :=
    if Rleb sens 0 then Err ValueError
    else if (Rleb q 0 || Rltb 1 q)%bool then Err ValueError else Ok tt.

  (** noise_log_cdf: the logarithm of the cdf *)
  Definition log_cdf (x : xr) : xr := np_log (Fin (cdf x)).

  (** plm 295-320 *)
  Definition a_mu_upper_cdf (x : xr) : R :=
    match adj with
    | ADD => cdf x
    | REMOVE =>
        if Reqb q 1 then cdf (xadd x (Fin sens))
        else (1 - q) * cdf x + q * cdf (xadd x (Fin sens))
    end.

  (** [np.logaddexp] *)
  Definition np_logaddexp (x y : xr) : xr := np_log (xadd (xexp x) (xexp y)).

  (** plm 322-351 *)
  Definition a_mu_lower_log_cdf (x : xr) : xr :=
    match adj with
    | ADD =>
        if Reqb q 1 then log_cdf (xadd x (Fin (- sens)))
        else np_logaddexp (xadd (np_log1p (Fin (- q))) (log_cdf x))
                          (xadd (np_log (Fin q)) (log_cdf (xadd x (Fin (- sens)))))
    | REMOVE => log_cdf x
    end.

  (** plm 429-468 *)
  Definition a_privacy_loss (x : xr) : res xr :=
    let? l := loss0 x in
    if Reqb q 1 then Ok l
    else match adj with
         | ADD => let? r := log_abc q (xneg l) (1 - q) in Ok (xneg r)
         | REMOVE => log_abc q l (1 - q)
         end.

  (** plm 493-557; [1 / sampling_prob] with a positive sampling probability *)
  Definition a_inverse_privacy_loss (l : xr) : res xr :=
    if Reqb q 1 then inverse0 l
    else match adj with
         | ADD =>
             let c := xneg (np_log (Fin (1 - q))) in
             if isclose l c then inverse0 PInf
             else if xltb c l then Err ValueError
             else let? r := log_abc (1 / q) (xneg l) (1 - 1 / q) in inverse0 (xneg r)
         | REMOVE =>
             let c := np_log (Fin (1 - q)) in
             if isclose l c then inverse0 MInf
             else if xleb l c then Err ValueError
             else let? r := log_abc (1 / q) l (1 - 1 / q) in inverse0 r
         end.

  (** [np.clip(x, 0, 1)] *)
  Definition clip01 (x : xr) : xr :=
    match x with
    | Fin a => Fin (Rmin 1 (Rmax 0 a))
    | PInf => Fin 1 | MInf => Fin 0 | NaN => NaN
    end.

  (** plm 353-403, for one epsilon (the vectorised call treats each epsilon alike) *)
  Definition a_get_delta (eps : R) : res xr :=
    let at_inverse :=
      let? x := a_inverse_privacy_loss (Fin eps) in
      Ok (clip01 (xsub (Fin (a_mu_upper_cdf x)) (xexp (xadd (Fin eps) (a_mu_lower_log_cdf x))))) in
    if Reqb q 1 then at_inverse
    else match adj with
         | ADD => if xltb (Fin eps) (xneg (np_log1p (Fin (- q)))) then at_inverse else Ok (Fin 0)
         | REMOVE =>
             if xltb (np_log1p (Fin (- q))) (Fin eps) then at_inverse
             else Ok (clip01 (Fin (- expm1 eps)))
         end.

  Definition additive (discrete : bool) (tail : res tail_pld) (bounds : res dots_bounds) : monotone :=
    mkMonotone discrete a_mu_upper_cdf a_get_delta a_privacy_loss a_inverse_privacy_loss tail bounds.
End Additive.

(** ** Laplace, plm 651-898 *)
Section Laplace.
  Variables (b sens q : R) (adj : adjacency).

  (** scipy.stats.laplace(scale=b).cdf *)
  Definition laplace_cdf_R (x : R) : R :=
    if Rltb x 0 then exp (x / b) / 2 else 1 - exp (- x / b) / 2.
  Definition laplace_cdf (x : xr) : R :=
    match x with Fin a => laplace_cdf_R a | PInf => 1 | _ => 0 end.

  (** plm 776-791; at infinite points Python computes inf - inf *)
  Definition laplace_loss0 (x : xr) : res xr :=
    Ok (match x with
        | Fin x => match adj with
                   | ADD => Fin ((Rabs (x - sens) - Rabs x) / b)
                   | REMOVE => Fin ((Rabs x - Rabs (x + sens)) / b)
                   end
        | _ => NaN
        end).

  (** plm 793-821 *)
  Definition laplace_inverse0 (l : xr) : res xr :=
    let threshold := xmul l (Fin b) in
    Ok (if xltb (Fin sens) threshold then MInf
        else if xleb threshold (Fin (- sens)) then PInf
        else match adj with
             | ADD => xmul (Fin (1/2)) (xsub (Fin sens) threshold)
             | REMOVE => xmul (Fin (1/2)) (xsub (Fin (- sens)) threshold)
             end).

  Definition laplace_mu := a_mu_upper_cdf sens q adj laplace_cdf.
  Definition laplace_privacy_loss := a_privacy_loss q adj laplace_loss0.

  (** plm 713-740 *)
  Definition laplace_tail : res tail_pld :=
    let '(lower, upper) := match adj with ADD => (0, sens) | REMOVE => (- sens, 0) end in
    let? l1 := laplace_privacy_loss (Fin lower) in
    let? l2 := laplace_privacy_loss (Fin upper) in
    Ok (mkTail lower upper
          (dict2 l1 (laplace_mu (Fin lower)) l2 (1 - laplace_mu (Fin upper)))).

  (** plm 742-774; the arguments of math.log are positive *)
  Definition laplace_bounds : res dots_bounds :=
    let max_epsilon := sens / b in
    Ok (if Reqb q 1 then EpsilonBounds (Fin max_epsilon) (Fin (- max_epsilon))
        else match adj with
             | ADD => EpsilonBounds (Fin (- ln (1 - q + q * exp (- max_epsilon))))
                                    (Fin (- ln (1 - q + q * exp max_epsilon)))
             | REMOVE => EpsilonBounds (Fin (ln (1 - q + q * exp max_epsilon)))
                                       (Fin (ln (1 - q + q * exp (- max_epsilon))))
             end).

  (** plm 691-711 *)
  Definition LaplacePrivacyLoss : res monotone :=
    if Rleb b 0 then Err ValueError
    else let? _ := check_additive sens q in
    Ok (additive sens q adj laplace_cdf laplace_loss0 laplace_inverse0 false laplace_tail laplace_bounds).
End Laplace.

(** plm 851-898, the attribute [parameter] of [LaplacePrivacyLoss.from_privacy_guarantee]
    (numpy divides by zero without an exception; for epsilon = 0 the parameter is inf). *)
Definition laplace_from_guarantee (pp : R * R) (sens q : R) : res xr :=
  let b := xdiv (Fin sens) (np_log (xadd (Fin 1) (xdiv (xsub (Fin (exp (fst pp))) (Fin 1)) (Fin q)))) in
  if xleb b (Fin 0) then Err ValueError
  else let? _ := check_additive sens q in Ok b.

(** ** Gaussian, plm 901-1207 *)
Section Gaussian.
  (** [Phi], [ppf]: scipy's cdf of the standard normal distribution and its inverse *)
  Variables (Phi ppf : R -> R) (sigma sens : R) (pess : bool) (log_bound q : R) (adj : adjacency).

  (** scipy.stats.norm(scale=sigma).cdf *)
  Definition gaussian_cdf (x : xr) : R :=
    match x with Fin a => Phi (a / sigma) | PInf => 1 | _ => 0 end.

  (** plm 1062-1084 *)
  Definition gaussian_loss0 (x : xr) : res xr :=
    Ok (match adj with
        | ADD => xdiv (xmul (Fin sens) (xsub (Fin (1/2 * sens)) x)) (Fin (sigma * sigma))
        | REMOVE => xdiv (xmul (Fin sens) (xsub (Fin (- (1/2) * sens)) x)) (Fin (sigma * sigma))
        end).
  (** plm 1086-1106 *)
  Definition gaussian_inverse0 (l : xr) : res xr :=
    Ok (match adj with
        | ADD => xsub (Fin (1/2 * sens)) (xdiv (xmul l (Fin (sigma * sigma))) (Fin sens))
        | REMOVE => xsub (Fin (- (1/2) * sens)) (xdiv (xmul l (Fin (sigma * sigma))) (Fin sens))
        end).

  Definition gaussian_mu := a_mu_upper_cdf sens q adj gaussian_cdf.
  Definition gaussian_privacy_loss := a_privacy_loss q adj gaussian_loss0.

  (** plm 977-1041 *)
  Definition gaussian_tail : res tail_pld :=
    let lower := sigma * ppf (1/2 * exp log_bound) in
    let upper := - lower in
    let '(lower, upper) :=
      match adj with ADD => (lower, upper + sens) | REMOVE => (lower - sens, upper) end in
    if pess then
      let? l2 := gaussian_privacy_loss (Fin upper) in
      Ok (mkTail lower upper (dict2 PInf (gaussian_mu (Fin lower)) l2 (1 - gaussian_mu (Fin upper))))
    else
      let? l1 := gaussian_privacy_loss (Fin lower) in
      Ok (mkTail lower upper [(l1, gaussian_mu (Fin lower))]).

  (** plm 1043-1060 *)
  Definition gaussian_bounds : res dots_bounds :=
    let? t := gaussian_tail in
    let? u := gaussian_privacy_loss (Fin (lower_x_truncation t)) in
    let? l := gaussian_privacy_loss (Fin (upper_x_truncation t)) in
    Ok (EpsilonBounds u l).

  (** plm 941-975 *)
  Definition GaussianPrivacyLoss : res monotone :=
    if Rleb sigma 0 then Err ValueError
    else if Rltb 0 log_bound then Err ValueError
    else let? _ := check_additive sens q in
    Ok (additive sens q adj gaussian_cdf gaussian_loss0 gaussian_inverse0 false gaussian_tail gaussian_bounds).
End Gaussian.

(** plm 1185-1191, [_get_delta_for_standard_deviation] *)
Definition delta_for_sigma (Phi ppf : R -> R) (sens q eps : R) (sigma : xr) : res xr :=
  match sigma with
  | Fin s => let? m := GaussianPrivacyLoss Phi ppf s sens true (-50) q REMOVE in get_delta_for_epsilon m eps
  | _ => Err ValueError
  end.
(** plm 1136-1207, the attribute [standard_deviation] of
    [GaussianPrivacyLoss.from_privacy_guarantee]; the Python float division by epsilon = 0
    raises.  [None] (no standard deviation found) makes the constructor raise TypeError. *)
Definition gaussian_from_guarantee (Phi ppf : R -> R) (fuel : nat) (pp : R * R) (sens q : R) : res xr :=
  let '(eps, delta) := pp in
  if Reqb delta 0 then Err ValueError
  else if Reqb eps 0 then Err ZeroDivisionError
  else
    let guess := sqrt (2 * ln (3/2 / delta)) * sens / eps in
    let? r := inverse_monotone_function (delta_for_sigma Phi ppf sens q eps) (Fin delta) false fuel
                (mkSearch (Fin 0) PInf (Some (Fin guess)) (Fin (1 / 10 ^ 7)) false) in
    match r with
    | Some (Fin s) =>
        let? _ := GaussianPrivacyLoss Phi ppf s sens true (-50) q REMOVE in Ok (Fin s)
    | Some x => Ok x
    | None => Err TypeError
    end.

(** Python's [isinstance(x, int)], for a point that is a number. *)
Definition is_int_point (x : xr) : bool :=
  match x with Fin a => Reqb a (IZR (Rfloor a)) | _ => false end.

(** ** Discrete Laplace, plm 1210-1460 *)
Section DiscreteLaplace.
  Variables (a : R) (sens : Z) (q : R) (adj : adjacency).

  (** scipy.stats.dlaplace(a).cdf at an integer and at a point *)
  Definition dlaplace_cdf_Z (k : Z) : R :=
    if (0 <=? k)%Z then 1 - exp (- a * IZR k) / (exp a + 1) else exp (a * (IZR k + 1)) / (exp a + 1).
  Definition dlaplace_cdf (x : xr) : R :=
    match x with Fin r => dlaplace_cdf_Z (Rfloor r) | PInf => 1 | _ => 0 end.

  (** plm 1328-1346 *)
  Definition dlaplace_loss0 (x : xr) : res xr :=
    match x with
    | Fin r =>
        if is_int_point x then
          Ok (Fin (match adj with
                   | ADD => (Rabs (r - IZR sens) - Rabs r) * a
                   | REMOVE => (Rabs r - Rabs (r + IZR sens)) * a
                   end))
        else Err ValueError
    | _ => Err ValueError
    end.

  (** plm 1348-1376 *)
  Definition dlaplace_inverse0 (l : xr) : res xr :=
    let threshold := xdiv l (Fin a) in
    if xltb (Fin (IZR sens)) threshold then Ok MInf
    else if xleb threshold (Fin (- IZR sens)) then Ok PInf
    else match threshold with
         | Fin h => Ok (Fin (IZR (match adj with
                                  | ADD => Rfloor (1/2 * (IZR sens - h))
                                  | REMOVE => Rfloor (1/2 * (- IZR sens - h))
                                  end)))
         | _ => Err ValueError                         (* math.floor of NaN *)
         end.

  Definition dlaplace_mu := a_mu_upper_cdf (IZR sens) q adj dlaplace_cdf.
  Definition dlaplace_privacy_loss := a_privacy_loss q adj dlaplace_loss0.

  (** plm 1279-1305 *)
  Definition dlaplace_tail : res tail_pld :=
    let '(lower, upper) := match adj with ADD => (1, sens - 1) | REMOVE => (1 - sens, -1) end%Z in
    let? l1 := dlaplace_privacy_loss (Fin (IZR (lower - 1))) in
    let? l2 := dlaplace_privacy_loss (Fin (IZR (upper + 1))) in
    Ok (mkTail (IZR lower) (IZR upper)
          (dict2 l1 (dlaplace_mu (Fin (IZR (lower - 1)))) l2 (1 - dlaplace_mu (Fin (IZR upper))))).

  (** plm 1307-1326 *)
  Definition dlaplace_bounds : res dots_bounds :=
    Ok (match adj with ADD => PointBounds 0 sens | REMOVE => PointBounds (- sens) 0 end).

  (** plm 1254-1277 *)
  Definition DiscreteLaplacePrivacyLoss : res monotone :=
    if Rleb a 0 then Err ValueError
    else let? _ := check_additive (IZR sens) q in
    Ok (additive (IZR sens) q adj dlaplace_cdf dlaplace_loss0 dlaplace_inverse0 true dlaplace_tail dlaplace_bounds).
End DiscreteLaplace.

(** plm 1408-1460, the attribute [parameter] of
    [DiscreteLaplacePrivacyLoss.from_privacy_guarantee] for an integer sensitivity. *)
Definition dlaplace_from_guarantee (pp : R * R) (sens : Z) (q : R) : res xr :=
  if (sens <=? 0)%Z then Err ValueError
  else if (Rleb q 0 || isclose (Fin q) (Fin 0))%bool then Err ValueError
  else
    let a := xdiv (np_log (xadd (Fin 1) (xdiv (xsub (Fin (exp (fst pp))) (Fin 1)) (Fin q)))) (Fin (IZR sens)) in
    if xleb a (Fin 0) then Err ValueError
    else let? _ := check_additive (IZR sens) q in Ok a.

(** ** Discrete Gaussian, plm 1463-1802 *)
Section DiscreteGaussian.
  Variables (sigma : R) (sens bound : Z) (q : R) (adj : adjacency).

  (** plm 1555-1562: the weights of -bound..bound and their normalised partial sums; the
      arrays of logarithms are exact. *)
  Definition dgauss_weight (k : Z) : R := exp (- (1/2) * (IZR k * IZR k) / (sigma * sigma)).
  Definition dgauss_sum (k : Z) : R :=
    rsum dgauss_weight (zrange (- bound) (Z.to_nat (k + bound + 1))).
  (** plm 1698-1714 *)
  Definition dgauss_cdf_Z (k : Z) : R :=
    dgauss_sum (Z.min bound (Z.max (- bound - 1) k)) / dgauss_sum bound.
  Definition dgauss_cdf (x : xr) : R :=
    match x with Fin r => dgauss_cdf_Z (Rfloor r) | PInf => 1 | _ => 0 end.

  (** plm 1646-1657 *)
  Definition dgauss_loss_add (x : xr) : res xr :=
    match x with
    | Fin r =>
        if (negb (is_int_point x) || Rltb r (- IZR bound) || Rltb (IZR bound + IZR sens) r)%bool
        then Err ValueError
        else if Rltb (IZR bound) r then Ok MInf
        else if Rltb r (IZR sens - IZR bound) then Ok PInf
        else Ok (Fin (IZR sens * (1/2 * IZR sens - r) / (sigma * sigma)))
    | _ => Err ValueError
    end.
  (** plm 1621-1662 *)
  Definition dgauss_loss0 (x : xr) : res xr :=
    match adj with ADD => dgauss_loss_add x | REMOVE => dgauss_loss_add (xadd x (Fin (IZR sens))) end.

  (** [np.clip(x, lo, hi)] followed by math.floor *)
  Definition floor_clip (x : xr) (lo hi : Z) : res Z :=
    match x with
    | Fin r => Ok (Rfloor (Rmin (IZR hi) (Rmax (IZR lo) r)))
    | PInf => Ok hi
    | MInf => Ok lo
    | NaN => Err ValueError
    end.
  (** plm 1681-1690 *)
  Definition dgauss_inverse_add (l : xr) : res Z :=
    if xeqb l MInf then Ok bound
    else floor_clip (xsub (Fin (1/2 * IZR sens)) (xdiv (xmul l (Fin (sigma * sigma))) (Fin (IZR sens))))
                    (sens - bound - 1) bound.
  (** plm 1664-1696 *)
  Definition dgauss_inverse0 (l : xr) : res xr :=
    let? x := dgauss_inverse_add l in
    Ok (Fin (IZR (match adj with ADD => x | REMOVE => (x - sens)%Z end))).

  Definition dgauss_mu := a_mu_upper_cdf (IZR sens) q adj dgauss_cdf.

  (** plm 1566-1604 *)
  Definition dgauss_truncation : Z * Z :=
    match adj with
    | ADD => ((if Reqb q 1 then sens - bound else - bound)%Z, bound)
    | REMOVE => ((- bound)%Z, (if Reqb q 1 then bound - sens else bound)%Z)
    end.
  Definition dgauss_tail : res tail_pld :=
    let '(lower, upper) := dgauss_truncation in
    Ok (mkTail (IZR lower) (IZR upper) [(PInf, dgauss_mu (Fin (IZR (lower - 1))))]).
  (** plm 1606-1619 *)
  Definition dgauss_bounds : res dots_bounds :=
    let '(lower, upper) := dgauss_truncation in Ok (PointBounds lower upper).

  (** plm 1515-1564, for a given truncation bound *)
  Definition DiscreteGaussianPrivacyLoss : res monotone :=
    if Rleb sigma 0 then Err ValueError
    else if (2 * bound <? sens)%Z then Err ValueError
    else let? _ := check_additive (IZR sens) q in
    Ok (additive (IZR sens) q adj dgauss_cdf dgauss_loss0 dgauss_inverse0 true dgauss_tail dgauss_bounds).
End DiscreteGaussian.

(** plm 1543-1548: the default truncation bound *)
Definition default_bound (sigma : R) (truncation_bound : option Z) : Z :=
  match truncation_bound with Some b => b | None => Rceil (116/10 * sigma) end.

(** ** Construction of privacy loss distributions, pld 787-940 *)

(** [math.ceil] / [math.floor] of a float *)
Definition round_xr (up : bool) (x : xr) : res Z :=
  match x with
  | Fin a => Ok (if up then Rceil a else Rfloor a)
  | NaN => Err ValueError
  | _ => Err OverflowError
  end.

(** the deltas of a list of epsilons; they are finite (np.clip) *)
Fixpoint deltas_at (m : monotone) (disc : R) (eps : list Z) : res (list R) :=
  match eps with
  | [] => Ok []
  | z :: eps =>
      let? d := get_delta_for_epsilon m (IZR z * disc) in
      let? ds := deltas_at m disc eps in
      match d with Fin d => Ok (d :: ds) | _ => Err ValueError end
  end.

(** pld 836-846: the loop over x from [x] down, [n] points; [acc] is rounded_epsilons in
    reverse order *)
Fixpoint rounded_epsilons (m : monotone) (disc : R) (x : Z) (n : nat) (acc : list Z) : res (list Z) :=
  match n with
  | O => Ok (rev acc)
  | S n =>
      let? l := privacy_loss m (Fin (IZR x)) in
      let scaled := xdiv l (Fin disc) in
      let? lo := round_xr false scaled in
      let acc := match acc with [] => [lo] | e :: _ => if (e <? lo)%Z then lo :: acc else acc end in
      let? hi := round_xr true scaled in
      let acc := match acc with [] => acc | e :: _ => if (e <? hi)%Z then hi :: acc else acc end in
      rounded_epsilons m disc (x - 1) n acc
  end.

(** pld 829-877, the connect-the-dots construction *)
Definition dots_pmf (m : monotone) (disc : R) : res pmf :=
  let? b := connect_dots_bounds m in
  match is_discrete m, b with
  | true, PointBounds lower upper =>
      let? eps := rounded_epsilons m disc upper (Z.to_nat (upper - lower + 1)) [] in
      let? ds := deltas_at m disc eps in
      connect_dots disc eps ds
  | false, EpsilonBounds upper lower =>
      let? u := round_xr true (xdiv upper (Fin disc)) in
      let? l := round_xr false (xdiv lower (Fin disc)) in
      let? ds := deltas_at m disc (zrange l (Z.to_nat (u - l + 1))) in
      connect_dots_fixed_gap disc l u ds
  | _, _ => Err ValueError
  end.

(** pld 884-890: the tail masses *)
Fixpoint tail_rounded (pess : bool) (disc : R) (l : list (xr * R)) (d : dict) : res dict :=
  match l with
  | [] => Ok d
  | (loss, p) :: l =>
      if xeqb loss PInf then tail_rounded pess disc l d
      else let? k := round_xr pess (xdiv loss (Fin disc)) in tail_rounded pess disc l (dadd d k p)
  end.
Definition tail_infinity (l : list (xr * R)) : R :=
  fold_right (fun kp acc => if xeqb (fst kp) PInf then snd kp else acc) 0 l.

(** pld 893-903: masses of the integer points x, x+1, ... (n of them) *)
Fixpoint point_masses (m : monotone) (pess : bool) (disc : R) (x : Z) (n : nat) (d : dict) : res dict :=
  match n with
  | O => Ok d
  | S n =>
      let p := mu_upper_cdf m (Fin (IZR x)) - mu_upper_cdf m (Fin (IZR (x - 1))) in
      let? l := privacy_loss m (Fin (IZR x)) in
      let? k := round_xr pess (xdiv l (Fin disc)) in
      point_masses m pess disc (x + 1) n (dadd d k p)
  end.

(** pld 911-923 and 927-934: the while loop over the intervals of the real line; the masses
    are added in the order of the intervals.  [round_fn(rounded_down_value + 0.5)] is the
    next or the same integer. *)
Fixpoint interval_masses (fuel : nat) (m : monotone) (pess : bool) (disc upper_x : R) (upper_loss x : xr)
    (down : Z) (d : dict) : res dict :=
  if xltb x (Fin upper_x) then
    match fuel with
    | O => Err OutOfFuel
    | S fuel =>
        let? x' := if xleb (Fin (disc * IZR down)) upper_loss then Ok (Fin upper_x)
                   else inverse_privacy_loss m (Fin (disc * IZR down)) in
        let k := round_fn pess (IZR down + 1/2) in
        interval_masses fuel m pess disc upper_x upper_loss x' (down - 1)
          (dadd d k (mu_upper_cdf m x' - mu_upper_cdf m x))
    end
  else Ok d.

(** pld 879-940, the privacy-buckets construction *)
Definition buckets_pmf (fuel : nat) (m : monotone) (pess : bool) (disc : R) : res pmf :=
  let? t := privacy_loss_tail m in
  let lower := lower_x_truncation t in
  let upper := upper_x_truncation t in
  let inf := tail_infinity (tail_masses t) in
  let? d := tail_rounded pess disc (tail_masses t) [] in
  let? d :=
    if is_discrete m then
      point_masses m pess disc (Rceil lower) (Z.to_nat (Rfloor upper - Rceil lower + 1)) d
    else
      let? l := privacy_loss m (Fin lower) in
      let? down := round_xr false (xdiv l (Fin disc)) in
      let? upper_loss := privacy_loss m (Fin upper) in
      interval_masses fuel m pess disc upper upper_loss (Fin lower) down d in
  create_pmf d disc inf pess.

(** pld 787-940 [_create_pld_pmf_from_monotone_privacy_loss], for a non-zero
    discretization interval *)
Definition monotone_pmf (fuel : nat) (m : monotone) (pess : bool) (disc : R) (use_connect_dots : bool) : res pmf :=
  if (use_connect_dots && pess)%bool then dots_pmf m disc else buckets_pmf fuel m pess disc.

(** pld 1125-1149 [_pld_for_subsampled_mechanism] *)
Definition subsampled_pld (single : adjacency -> res pmf) (q : R) : res pld :=
  let? r := single REMOVE in
  if Reqb q 1 then Ok (new_pld r None)
  else let? a := single ADD in Ok (new_pld r (Some a)).

(** pld 1152-1200 *)
Definition from_laplace_mechanism (fuel : nat) (b sens : R) (pess : bool) (disc q : R) (dots : bool) : res pld :=
  subsampled_pld (fun adj =>
    let? m := LaplacePrivacyLoss b sens q adj in monotone_pmf fuel m pess disc dots) q.
(** pld 1203-1257 *)
Definition from_gaussian_mechanism (Phi ppf : R -> R) (fuel : nat) (sigma sens : R) (pess : bool)
    (disc log_bound q : R) (dots : bool) : res pld :=
  subsampled_pld (fun adj =>
    let? m := GaussianPrivacyLoss Phi ppf sigma sens pess log_bound q adj in monotone_pmf fuel m pess disc dots) q.
(** pld 1260-1309 *)
Definition from_discrete_laplace_mechanism (fuel : nat) (a : R) (sens : Z) (pess : bool) (disc q : R) (dots : bool)
    : res pld :=
  subsampled_pld (fun adj =>
    let? m := DiscreteLaplacePrivacyLoss a sens q adj in monotone_pmf fuel m pess disc dots) q.
(** pld 1312-1369 *)
Definition from_discrete_gaussian_mechanism (fuel : nat) (sigma : R) (sens : Z) (truncation_bound : option Z)
    (pess : bool) (disc q : R) (dots : bool) : res pld :=
  subsampled_pld (fun adj =>
    let? m := DiscreteGaussianPrivacyLoss sigma sens (default_bound sigma truncation_bound) q adj in
    monotone_pmf fuel m pess disc dots) q.
