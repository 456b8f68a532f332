(** Model of the mixture of Gaussians in
    python/dp_accounting/dp_accounting/pld/privacy_loss_mechanism.py ("plm") 1805-2415, and of
    its constructor in privacy_loss_distribution.py ("pld") 1372-1432.  Points and privacy losses
    are floats of exact precision; scipy's cdf and logcdf are exact. *)
From Verif Require Import Base XReal Exn PyDict TypesAdjacency ModelPmf ModelPld ModelMake ModelRdp ModelLog ModelSearch ModelMech.

(** [np.logaddexp.reduce] of a non-empty array *)
Definition logaddexp_reduce (l : list R) : R :=
  match l with [] => 0 | a :: l => fold_left (fun a b => ln (exp a + exp b)) l a end.
(** [np.min], [np.max] of a non-empty array *)
Definition np_min (l : list R) : R := match l with [] => 0 | a :: l => fold_left Rmin l a end.
Definition np_max (l : list R) : R := match l with [] => 0 | a :: l => fold_left Rmax l a end.
(** [(np.diff(l) >= 0).all()] *)
Fixpoint nondecreasing (l : list R) : bool :=
  match l with
  | a :: (b :: _) as l' => (Rleb a b && nondecreasing l')%bool
  | _ => true
  end.
(** [np.isclose(x, y)] with the default tolerances, for finite [x] *)
Definition np_isclose (x : R) (y : xr) : bool :=
  match y with
  | Fin y => Rleb (Rabs (x - y)) (1 / 10 ^ 8 + 1 / 10 ^ 5 * Rabs y)
  | _ => false
  end.
Fixpoint map_res {A B} (f : A -> res B) (l : list A) : res (list B) :=
  match l with
  | [] => Ok []
  | a :: l => let? b := f a in let? bs := map_res f l in Ok (b :: bs)
  end.

Section Mixture.
  (** [Phi], [ppf]: scipy's cdf of the standard normal distribution and its inverse;
      [comps]: the attributes sensitivities and sampling_probs, zipped. *)
  Variables (Phi ppf : R -> R) (fuel : nat) (sigma : R) (comps : list (R * R)) (pess : bool) (log_bound : R) (adj : adjacency).

  (** plm 1948-1952, the constant properties *)
  Definition pos_comps : list (R * R) := filter (fun c => Rltb 0 (fst c)) comps.
  Definition mx_prob : R := Rmin 1 (Rmax 0 (rsum snd pos_comps)).
  Definition mx_min_sens : R := np_min (map fst pos_comps).
  Definition mx_max_sens : R := np_max (map fst pos_comps).

  (** plm 2387-2415, noise_cdf and noise_log_cdf *)
  Definition mx_cdf : xr -> R := gaussian_cdf Phi sigma.

  (** plm 1955-1983 *)
  Definition mx_mu_upper_cdf (x : xr) : R :=
    match adj with
    | ADD => mx_cdf x
    | REMOVE => rsum (fun c => mx_cdf (xadd x (Fin (fst c))) * snd c) comps
    end.
  (** plm 1985-2015; logsumexp with weights b is the logarithm of the weighted sum of the
      exponentials, here of log cdfs *)
  Definition mx_mu_lower_log_cdf (x : xr) : xr :=
    match adj with
    | ADD => np_log (Fin (rsum (fun c => mx_cdf (xadd x (Fin (- fst c))) * snd c) comps))
    | REMOVE => log_cdf mx_cdf x
    end.

  (** plm 2167-2191 *)
  Definition single_loss (x s : R) : R :=
    let scale := match adj with ADD => 1/2 | REMOVE => - (1/2) end in
    s * (scale * s - x) / (sigma * sigma).
  (** plm 2134-2143 *)
  Definition loss_constant (c : R * R) : R :=
    match adj with
    | ADD => ln (snd c) - single_loss 0 (fst c)
    | REMOVE => ln (snd c) + single_loss 0 (fst c)
    end.
  (** plm 2145-2165, at a finite point *)
  Definition mx_loss (x : R) : R :=
    match adj with
    | ADD => - logaddexp_reduce (map (fun c => loss_constant c + fst c * x / (sigma * sigma)) comps)
    | REMOVE => logaddexp_reduce (map (fun c => loss_constant c - fst c * x / (sigma * sigma)) comps)
    end.

  (** plm 2193-2214 *)
  Definition single_inverse (l : xr) (s : R) : xr :=
    let i := xsub (Fin (1/2 * s)) (xdiv (xmul l (Fin (sigma * sigma))) (Fin s)) in
    match adj with ADD => i | REMOVE => xsub i (Fin s) end.
  (** plm 1805-1809 and 1812-1814 *)
  Definition without_sampling_add (l : xr) : res xr :=
    let? r := log_abc (1 / mx_prob) (xneg l) (1 - 1 / mx_prob) in Ok (xneg r).
  Definition without_sampling (l : xr) : res xr :=
    match adj with
    | ADD => without_sampling_add l
    | REMOVE => let? r := without_sampling_add (xneg l) in Ok (xneg r)
    end.

  (** plm 2344-2385: the recursion treats each loss of the list alone *)
  Fixpoint range_search (fuel : nat) (precision l b0 b1 : R) : res R :=
    if Rleb (b1 - b0) precision then Ok (IZR (Rfloor (b1 / precision)) * precision)
    else match fuel with
         | O => Err OutOfFuel
         | S fuel =>
             let mid := (b0 + b1) / 2 in
             if Rltb l (mx_loss mid) then range_search fuel precision l mid b1
             else range_search fuel precision l b0 mid
         end.

  (** plm 2312-2330: the range of the search.  The candidates are finite unless a loss is out of
      range, which is excluded before (an infinite bound would make the recursion endless). *)
  Definition finite_bound (l s : R) : res R :=
    let? u := without_sampling (Fin l) in
    match single_inverse u s with Fin x => Ok x | _ => Err ValueError end.
  Definition search_bounds (precision min_pl max_pl : R) : res (R * R) :=
    let? a := finite_bound min_pl mx_min_sens in
    let? b := finite_bound min_pl mx_max_sens in
    let? c := finite_bound max_pl mx_min_sens in
    let? d := finite_bound max_pl mx_max_sens in
    Ok (IZR (Rfloor (np_min [a; b; c; d] / precision)) * precision,
        IZR (Rceil (np_max [a; b; c; d] / precision)) * precision).

  (** plm 2284-2302: the privacy loss at the infinite end of the line *)
  Definition log_rest : xr := if Rltb mx_prob 1 then Fin (ln (1 - mx_prob)) else MInf.
  Definition end_loss : xr := match adj with ADD => xneg log_rest | REMOVE => log_rest end.
  Definition is_finite_loss (l : R) : bool := negb (np_isclose l end_loss).

  (** plm 2241-2342 *)
  Definition mx_inverse_losses (ls : list R) (precision : R) : res (list xr) :=
    if negb (nondecreasing ls) then Err ValueError else
    match ls with
    | [] => Ok []
    | l0 :: _ =>
        if (match adj with
            | ADD => xltb end_loss (Fin (last ls l0))
            | REMOVE => xleb (Fin l0) end_loss
            end) then Err ValueError else
        let fs := filter is_finite_loss ls in
        match fs with
        | [] => Err ValueError                      (* np.max / np.min of an empty array *)
        | _ :: _ =>
            let min_pl := match adj with ADD => l0 | REMOVE => np_min fs end in
            let max_pl := match adj with ADD => np_max fs | REMOVE => last ls l0 end in
            let? b := search_bounds precision min_pl max_pl in
            map_res (fun l =>
              if is_finite_loss l then
                let? x := range_search fuel precision l (fst b) (snd b) in Ok (Fin x)
              else Ok (match adj with ADD => MInf | REMOVE => PInf end)) ls
        end
    end.
  (** plm 2216-2239 *)
  Definition mx_inverse_loss (l precision : R) : res xr :=
    let? xs := mx_inverse_losses [l] precision in
    match xs with x :: _ => Ok x | [] => Err IndexError end.

  (** plm 2034-2041: the epsilons that need a cutoff, and the deltas of the others *)
  Definition needs_cutoff (eps : R) : bool :=
    if Reqb mx_prob 1 then true
    else match adj with
         | ADD => Rltb eps (- ln (1 - mx_prob))
         | REMOVE => Rltb (ln (1 - mx_prob)) eps
         end.
  Definition other_delta (eps : R) : R := match adj with ADD => 0 | REMOVE => - expm1 eps end.
  (** plm 2043-2045, and np.clip in 2047 *)
  Definition clip_R (x : R) : R := Rmin 1 (Rmax 0 x).
  Definition cutoff_delta (eps : R) (x : xr) : R :=
    match clip01 (xsub (Fin (mx_mu_upper_cdf x)) (xexp (xadd (Fin eps) (mx_mu_lower_log_cdf x)))) with
    | Fin d => d | _ => 0
    end.
  (** plm 2042-2047: [deltas[inverse_indices] = ...], the cutoffs in the order of the epsilons *)
  Fixpoint scatter (eps : list R) (xs : list xr) : list R :=
    match eps with
    | [] => []
    | e :: eps =>
        if needs_cutoff e then
          match xs with x :: xs => cutoff_delta e x :: scatter eps xs | [] => [] end
        else clip_R (other_delta e) :: scatter eps xs
    end.
  (** plm 2051-2054: the loop over the reversed range *)
  Fixpoint running_max (ds : list R) : list R :=
    match ds with
    | [] => []
    | d :: ds => match running_max ds with [] => [d] | m :: r => Rmax d m :: m :: r end
    end.

  (** plm 2017-2055, for a list *)
  Definition raw_deltas (eps : list R) : res (list R) :=
    if negb (nondecreasing eps) then Err ValueError else
    let? xs := mx_inverse_losses (filter needs_cutoff eps) (1 / 10 ^ 6) in
    Ok (scatter eps xs).
  Definition mx_deltas (eps : list R) : res (list R) :=
    let? ds := raw_deltas eps in Ok (running_max ds).
  (** plm 2017-2049, for a number *)
  Definition mx_delta (eps : R) : res R :=
    let? ds := raw_deltas [eps] in
    match ds with d :: _ => Ok d | [] => Err IndexError end.

  (** plm 2057-2118 *)
  Definition mx_tail : res tail_pld :=
    let tail_mass := 1/2 * exp log_bound in
    let z := sigma * ppf tail_mass in
    let? lower :=
      match adj with
      | ADD => Ok z
      | REMOVE =>
          let? r := inverse_monotone_function (fun x => Ok (Fin (mx_mu_upper_cdf x))) (Fin tail_mass) true fuel
                      (mkSearch (Fin (z - mx_max_sens)) (Fin z) None (Fin (1 / 10 ^ 4)) false) in
          match r with Some (Fin x) => Ok x | _ => Err TypeError end
      end in
    let upper := - z in
    Ok (mkTail lower upper
          (if pess then dict2 PInf (mx_mu_upper_cdf (Fin lower)) (Fin (mx_loss upper)) (1 - mx_mu_upper_cdf (Fin upper))
           else [(Fin (mx_loss lower), mx_mu_upper_cdf (Fin lower))])).
  (** plm 2120-2132 *)
  Definition mx_bounds : res dots_bounds :=
    let? t := mx_tail in
    Ok (EpsilonBounds (Fin (mx_loss (lower_x_truncation t))) (Fin (mx_loss (upper_x_truncation t)))).

  (** the methods as used by the privacy-buckets construction, whose points are finite *)
  Definition mx_methods : monotone :=
    mkMonotone false mx_mu_upper_cdf (fun e => let? d := mx_delta e in Ok (Fin d))
      (fun x => match x with Fin x => Ok (Fin (mx_loss x)) | _ => Err ValueError end)
      (fun l => match l with Fin l => mx_inverse_loss l (1 / 10 ^ 6) | _ => Err ValueError end)
      mx_tail mx_bounds.

  (** pld 862-877, the connect-the-dots construction with the list version of
      get_delta_for_epsilon *)
  Definition mx_dots_pmf (disc : R) : res pmf :=
    let? t := mx_tail in
    let u := Rceil (mx_loss (lower_x_truncation t) / disc) in
    let l := Rfloor (mx_loss (upper_x_truncation t) / disc) in
    let? ds := mx_deltas (map (fun z => IZR z * disc) (zrange l (Z.to_nat (u - l + 1)))) in
    connect_dots_fixed_gap disc l u ds.
  Definition mx_pmf (disc : R) (use_connect_dots : bool) : res pmf :=
    if (use_connect_dots && pess)%bool then mx_dots_pmf disc else buckets_pmf fuel mx_methods pess disc.
End Mixture.

(** plm 1873-1936, the checks of __init__; the result is the list of components kept *)
Definition new_mixture (sigma : R) (sens probs : list R) (log_bound : R) : res (list (R * R)) :=
  if Rleb sigma 0 then Err ValueError
  else if Rltb 0 log_bound then Err ValueError
  else if negb (length probs =? length sens)%nat then Err ValueError
  else
    let comps := filter (fun c => negb (Reqb (snd c) 0)) (combine sens probs) in
    if existsb (fun c => Rltb (fst c) 0) comps then Err ValueError
    else match comps with
         | [] => Err ValueError                                          (* max of an empty array *)
         | _ :: _ =>
             if Reqb (np_max (map fst comps)) 0 then Err ValueError
             else if negb (isclose (Fin (rsum snd comps)) (Fin 1)) then Err ValueError
             else if existsb (fun c => (Rleb (snd c) 0 || Rltb 1 (snd c))%bool) comps then Err ValueError
             else Ok comps
         end.

(** pld 1372-1432 *)
Definition from_mixture_gaussian_mechanism (Phi ppf : R -> R) (fuel : nat) (sigma : R) (sens probs : list R)
    (pess : bool) (disc log_bound : R) (dots : bool) : res pld :=
  let single adj :=
    let? comps := new_mixture sigma sens probs log_bound in
    mx_pmf Phi ppf fuel sigma comps pess log_bound adj disc dots in
  let? r := single REMOVE in
  let? a := single ADD in
  Ok (new_pld r (Some a)).
