(** Properties of the searches (C31-C34). *)
From Verif Require Import Base XReal Exn TypesEvent TypesRelation SpecEvent ModelBuilder ModelMake ModelRdp ModelAccountant ModelSearch
  SpecDP SpecRenyi SpecRdp SpecAccountant SpecAccPld SpecSearch ProofSearch ProofCal ProofSearchEx ProofRound.

(** C31, decreasing functions: the result lies in the range, meets the value, and no other
    point of the range that meets it is smaller by more than the tolerance; None means that
    no point of the range meets the value.  For a discrete search the result is the
    smallest integer, unless already the lower end meets the value. *)
Theorem C31_inverse_decreasing_partial : forall func value fuel l up g t disc r,
  search_ok l up g t disc ->
  inverse_monotone_function func value false fuel (params_of l up g t disc) = Ok r ->
  (r = None -> non_increasing func -> forall x, in_range l up x -> ~ meets func value x) /\
  (forall x, r = Some x -> exists x', x = Fin x' /\ in_range l up x' /\ meets func value x' /\ (disc = true -> is_int x') /\
     (non_increasing func -> forall y, in_range l up y -> meets func value y -> x' <= y + tol_of t disc) /\
     (non_increasing func -> disc = true -> ~ meets func value l ->
        forall y, is_int y -> in_range l up y -> meets func value y -> x' <= y)).
Proof. exact inverse_decreasing. Qed.
Print Assumptions C31_inverse_decreasing_partial.

(** C31, increasing functions. *)
Theorem C31_inverse_increasing_partial : forall func value fuel l up g t disc r,
  search_ok l up g t disc -> value <> NaN ->
  inverse_monotone_function func value true fuel (params_of l up g t disc) = Ok r ->
  (r = None -> non_decreasing func -> forall x, in_range l up x -> ~ meets func value x) /\
  (forall x, r = Some x -> exists x', x = Fin x' /\ in_range l up x' /\ meets func value x' /\ (disc = true -> is_int x') /\
     (non_decreasing func -> forall y, in_range l up y -> meets func value y -> y <= x' + tol_of t disc)).
Proof. exact inverse_increasing. Qed.
Print Assumptions C31_inverse_increasing_partial.

(** C31: the search returns, if the function is defined on the range and, for a range open
    above, eventually stops the doubling of the guess. *)
Theorem C31_inverse_terminates : forall func value inc l up g t disc,
  search_ok l up g t disc -> 0 < t ->
  (forall x, in_range l up x -> exists v, func (Fin x) = Ok v) ->
  (up = PInf -> exists X, forall x, X <= x -> exists v, func (Fin x) = Ok v /\ check value inc v = false) ->
  exists N, forall fuel, (N < fuel)%nat -> exists r, inverse_monotone_function func value inc fuel (params_of l up g t disc) = Ok r.
Proof. exact inverse_terminates. Qed.
Print Assumptions C31_inverse_terminates.

Example C31_example : search_ok 0 PInf (Some 1) (1/100) false /\ non_increasing seven_minus /\
  (exists fuel x, inverse_monotone_function seven_minus (Fin 3) false fuel (params_of 0 PInf (Some 1) (1/100) false) = Ok (Some x)) /\
  search_ok 0 (Fin 9) (Some 1) (1/100) true /\ non_decreasing plus_one /\
  (exists fuel x, inverse_monotone_function plus_one (Fin 3) true fuel (params_of 0 (Fin 9) (Some 1) (1/100) true) = Ok (Some x)).
Proof. exact inverse_example. Qed.

(** C31, "the best integer for discrete search", is false when the lower end of the range
    already meets the value: the search on {0, 1} returns 1 although 0 meets it. *)
Theorem C31_discrete_refuted : forall fuel,
  search_ok 0 (Fin 1) None 1 true /\ non_increasing zero_fun /\ meets zero_fun (Fin 1) 0 /\
  inverse_monotone_function zero_fun (Fin 1) false (S fuel) (params_of 0 (Fin 1) None 1 true) = Ok (Some (Fin 1)).
Proof. exact discrete_misses_lower. Qed.
Print Assumptions C31_discrete_refuted.

(** C31, "returns x in the search range", is false for an initial guess below the range. *)
Theorem C31_guess_refuted : forall fuel, non_increasing zero_fun /\
  inverse_monotone_function zero_fun (Fin 1) false (S fuel) (params_of 5 (Fin 10) (Some 1) (1/100) false) = Ok (Some (Fin 1)) /\
  ~ in_range 5 (Fin 10) 1.
Proof. exact guess_below. Qed.
Print Assumptions C31_guess_refuted.

(** C32: bisection returns a point of the interval whose value is at most zero; the value
    is zero or a point with a positive value is within the tolerance. *)
Theorem C32_bisect_sound : forall f, never_nan f -> forall fuel l u tol x, l <= u ->
  bisect f fuel l u tol = Ok x ->
  l <= x <= u /\ exists v, f x = Ok v /\ xleb v (Fin 0) = true /\
    (xeqb v (Fin 0) = true \/
     negative v /\ exists y w, l <= y <= u /\ f y = Ok w /\ positive w /\ Rabs (x - y) <= tol).
Proof. exact bisect_ok. Qed.
Print Assumptions C32_bisect_sound.

(** C32: it returns whenever the end points do not have the same sign, and raises
    ValueError otherwise. *)
Theorem C32_bisect_returns : forall f, never_nan f -> forall tol l u lv uv n fuel,
  0 < tol -> l <= u -> f l = Ok lv -> f u = Ok uv -> ~ same_sign lv uv ->
  (forall x, l <= x <= u -> exists v, f x = Ok v) -> u - l <= tol * 2 ^ n -> (n < fuel)%nat ->
  exists x, bisect f fuel l u tol = Ok x.
Proof. exact bisect_total. Qed.
Print Assumptions C32_bisect_returns.

Theorem C32_bisect_same_sign : forall f tol l u lv uv fuel,
  f l = Ok lv -> f u = Ok uv -> same_sign lv uv -> bisect f (S fuel) l u tol = Err ValueError.
Proof. exact bisect_same. Qed.
Print Assumptions C32_bisect_same_sign.

Example C32_example : never_nan ten_minus /\ exists x, bisect ten_minus 10 7 15 1 = Ok x.
Proof. exact bisect_example. Qed.

(** C33: the bracket search returns the first two consecutive points of the widening
    sequence whose values do not have the same sign, after at most 30 widenings; it raises
    NoBracketIntervalFoundError only if the values at all 32 points have the same sign;
    other exceptions are those of the function at these points. *)
Theorem C33_bracket_search : forall f lo up, lo < up ->
  (forall a b, bracket_search f lo up = Ok (a, b) -> exists j v w, (j <= 30)%nat /\ a = widen lo up j /\ b = widen lo up (S j) /\
     f a = Ok v /\ f b = Ok w /\ ~ same_sign v w /\
     forall i, (i < j)%nat -> exists v w, f (widen lo up i) = Ok v /\ f (widen lo up (S i)) = Ok w /\ same_sign v w) /\
  (forall x, bracket_search f lo up = Err x -> (x = NoBracketIntervalFoundError /\
      forall i, (i <= 30)%nat -> exists v w, f (widen lo up i) = Ok v /\ f (widen lo up (S i)) = Ok w /\ same_sign v w) \/
      exists i, (i <= 31)%nat /\ f (widen lo up i) = Err x).
Proof. exact bracket_ok. Qed.
Print Assumptions C33_bracket_search.

(** C33: the outcome depends on the function at these 32 points only. *)
Theorem C33_evaluations : forall f g lo up, lo < up ->
  (forall k, (k <= 31)%nat -> f (widen lo up k) = g (widen lo up k)) -> bracket_search f lo up = bracket_search g lo up.
Proof. exact bracket_points. Qed.
Print Assumptions C33_evaluations.

Example C33_example : bracket_search ten_minus 0 1 = Ok (7, 15) /\
  bracket_search (fun _ => Ok (Fin 1)) 0 1 = Err NoBracketIntervalFoundError.
Proof. exact bracket_example. Qed.

(** C34: for any accountant that does not report NaN, any event function and any root
    finder, the event of the returned parameter meets the target; the parameter is an int
    exactly for a discrete search. *)
Theorem C34_calibrated_epsilon : forall S mc get_epsilon (fresh : accountant S) make_event brentq,
  (forall e delta, fresh_epsilon mc get_epsilon fresh e delta <> Ok NaN) ->
  forall fuel eps delta bi discrete tol p,
  calibrate mc get_epsilon fresh make_event brentq fuel eps delta bi discrete tol = Ok p ->
  (exists e v, make_event p = Ok e /\ fresh_epsilon mc get_epsilon fresh e delta = Ok v /\ xleb v (Fin eps) = true) /\
  match p with PyInt _ => discrete = true | PyFloat _ => discrete = false | PyInf => False end.
Proof. exact (@calibrate_sound). Qed.
Print Assumptions C34_calibrated_epsilon.

(** C34 for the two accountants, which never report NaN. *)
Theorem C34_rdp_not_nan : forall frac fuel rel orders fresh e delta,
  fresh_epsilon (rdp_mc frac fuel rel orders) (rdp_get_epsilon orders) fresh e delta <> Ok NaN.
Proof. exact rdp_fresh_not_nan. Qed.
Print Assumptions C34_rdp_not_nan.
Theorem C34_pld_not_nan : forall mc fresh e delta, fresh_epsilon mc pldacc_epsilon fresh e delta <> Ok NaN.
Proof. exact pld_fresh_not_nan. Qed.
Print Assumptions C34_pld_not_nan.

(** C34: a parameter calibrated with the RDP accountant makes the adaptive interaction its
    event stands for (eps, delta)-differentially private. *)
Theorem C34_rdp_private : forall frac fuel rel orders make_event brentq fuel' eps delta bi discrete tol p,
  calibrate (rdp_mc frac fuel rel orders) (rdp_get_epsilon orders) (rdp_new orders) make_event brentq fuel' eps delta bi discrete tol = Ok p ->
  orders <> [] -> real_orders orders -> (forall a, In a orders -> order_ok a) ->
  exists e, make_event p = Ok e /\ (pos_counts e ->
  forall E, interaction (map (fun a => rdp_curve orders (unit_charge frac fuel rel orders a)) (atoms e)) E -> dp_both E eps delta).
Proof. exact calibrate_rdp. Qed.
Print Assumptions C34_rdp_private.

(** C34: the same for the PLD accountant. *)
Theorem C34_pld_private : forall gaussian_pld laplace_pld mixture_pld fast_len rel disc tail mech A0 make_event brentq fuel eps delta bi discrete tol p,
  let mc := pld_mc gaussian_pld laplace_pld mixture_pld fast_len rel disc tail in
  (forall k, (k <= fast_len k)%nat) -> 0 <= tail -> 0 < disc -> pld_new disc = Ok A0 ->
  calibrate mc pldacc_epsilon A0 make_event brentq fuel eps delta bi discrete tol = Ok p ->
  exists e, make_event p = Ok e /\ (pos_counts e ->
  Forall (run_sound gaussian_pld laplace_pld mixture_pld rel tail mech) (history_runs [(e, 1%Z)]) ->
  (forall a F, mech a F -> valid F) ->
  forall E, valid E -> interaction (run_classes mech (history_runs [(e, 1%Z)])) E -> dp_both E eps delta).
Proof. exact calibrate_pld. Qed.
Print Assumptions C34_pld_private.

(** C34: if there is a best parameter and the root finder keeps its contract, the result is
    within the tolerance of it. *)
Theorem C34_nearly_optimal : forall S mc get_epsilon (fresh : accountant S) make_event brentq,
  (forall e delta, fresh_epsilon mc get_epsilon fresh e delta <> Ok NaN) ->
  forall fuel eps delta bi tol p best,
  best_param (fun x => param_epsilon mc get_epsilon fresh make_event (PyFloat x) delta) eps best ->
  (match bi with Explicit a b => a <= b | _ => True end) ->
  (forall a b t r, 0 < t -> brentq (epsilon_gap mc get_epsilon fresh make_event false eps delta) a b t = BrentRoot r true -> Rabs (r - best) <= t) ->
  calibrate mc get_epsilon fresh make_event brentq fuel eps delta bi false tol = Ok p ->
  exists x, p = PyFloat x /\ Rabs (x - best) <= tolerance false tol.
Proof. exact (@calibrate_optimal). Qed.
Print Assumptions C34_nearly_optimal.

(** C34: calibration with an explicit bracket of a solution returns. *)
Theorem C34_returns : forall S mc get_epsilon (fresh : accountant S) make_event brentq,
  (forall e delta, fresh_epsilon mc get_epsilon fresh e delta <> Ok NaN) ->
  forall fuel eps delta a b (discrete : bool) tol n, 0 <= eps -> 0 <= delta <= 1 -> a <= b ->
  (forall t, tol = Some t -> discrete = true \/ 0 < t) ->
  snd (acc_get_ledger fresh) = NoOp ->
  let t := tolerance discrete tol in
  let eps_of x := param_epsilon mc get_epsilon fresh make_event (if discrete then PyInt (Rround x) else PyFloat x) delta in
  (forall x, a - t <= x <= b + t -> exists v, eps_of x = Ok v) ->
  (exists v w, (eps_of a = Ok v /\ eps_of b = Ok w \/ eps_of b = Ok v /\ eps_of a = Ok w) /\
     xleb v (Fin eps) = true /\ xleb (Fin eps) w = true) ->
  (forall g, exists r c, brentq g a b t = BrentRoot r c /\ a <= r <= b) ->
  b - a <= t * 2 ^ n -> (n < fuel)%nat ->
  exists p, calibrate mc get_epsilon fresh make_event brentq fuel eps delta (Explicit a b) discrete tol = Ok p.
Proof. exact (@calibrate_returns). Qed.
Print Assumptions C34_returns.

(** C34: a discrete calibration answers with the integer nearest to the root that was found,
    halves rounded to the even one, when the root meets the target. *)
Theorem C34_nearest : forall S mc get_epsilon (fresh : accountant S) make_event brentq fuel eps delta a b tol r v p,
  brentq (epsilon_gap mc get_epsilon fresh make_event true eps delta) a b (tolerance true tol) = BrentRoot r true ->
  epsilon_gap mc get_epsilon fresh make_event true eps delta r = Ok v -> xltb (Fin 0) v = false ->
  calibrate mc get_epsilon fresh make_event brentq fuel eps delta (Explicit a b) true tol = Ok p ->
  exists z, p = PyInt z /\ Rabs (IZR z - r) <= 1/2 /\ (Rabs (IZR z - r) = 1/2 -> Z.even z = true).
Proof. exact calibrate_nearest. Qed.
Print Assumptions C34_nearest.

Example C34_nearest_example :
  let mc := fun (_ : bool) (s : unit) (_ : event num) (_ : Z) => (s, Fine) in
  let get_epsilon := fun (_ : unit) (_ : R) => Ok (Fin 1) in
  let fresh := mkAcc tt new_builder in
  let make_event := fun x : num => Ok (Gaussian x) in
  let brentq := fun (_ : R -> res xr) (_ _ _ : R) => BrentRoot (9/4) true in
  epsilon_gap mc get_epsilon fresh make_event true 2 0 (9/4) = Ok (Fin (1 - 2)) /\ xltb (Fin 0) (Fin (1 - 2)) = false /\
  calibrate mc get_epsilon fresh make_event brentq 1 2 0 (Explicit 1 4) true None = Ok (PyInt 2).
Proof. exact nearest_example. Qed.

Example C34_example : forall frac fuel rel, exists e v,
  let mc := rdp_mc frac fuel rel [Fin 2] in
  calibrate mc (rdp_get_epsilon [Fin 2]) (rdp_new [Fin 2]) gaussian_event no_convergence 1 e (1/10) (Explicit 1 2) false None = Ok (PyFloat 1) /\ 1 < e /\
  fresh_epsilon mc (rdp_get_epsilon [Fin 2]) (rdp_new [Fin 2]) (Gaussian (PyFloat 2)) (1/10) = Ok v /\
  exists E, interaction (map (fun a => rdp_curve [Fin 2] (unit_charge frac fuel rel [Fin 2] a)) (atoms (Gaussian (PyFloat 1)))) E.
Proof. exact calibrate_example. Qed.
Example C34_optimal_example : forall frac fuel rel,
  best_param (gauss_eps frac fuel rel) (1 + c2) 1 /\
  (forall g a b t r, 0 < t -> below_one g a b t = BrentRoot r true -> Rabs (r - 1) <= t) /\
  exists p, calibrate (rdp_mc frac fuel rel [Fin 2]) (rdp_get_epsilon [Fin 2]) (rdp_new [Fin 2]) gaussian_event below_one 10 (1 + c2) (1/10) (Explicit (1/2) 2) false (Some (1/4)) = Ok p.
Proof. exact optimal_example. Qed.
