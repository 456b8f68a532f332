(** Model of the numerical functions of
    python/dp_accounting/dp_accounting/rdp/rdp_privacy_accountant.py (cited as "rdp"). *)
From Verif Require Import Base XReal Exn TypesEvent TypesRelation ModelMake.

(** Values of log probabilities and log magnitudes: [logp], [None] is -inf. *)
Definition lltb (x y : logp) : bool :=
  match x, y with
  | _, None => false
  | None, Some _ => true
  | Some a, Some b => Rltb a b
  end.
Definition lmin (x y : logp) : logp := if lltb y x then y else x.
Definition lmax (x y : logp) : logp := if lltb x y then y else x.
Definition ladd (x y : logp) : logp :=
  match x, y with Some a, Some b => Some (a + b) | _, _ => None end.
Definition xr_of_logp (x : logp) : xr := match x with Some a => Fin a | None => MInf end.

(** rdp 33-39, [_log_add]. *)
Definition log_add (logx logy : logp) : logp :=
  let a := lmin logx logy in
  let b := lmax logx logy in
  match a, b with
  | Some a, Some b => Some (ln (1 + exp (a - b)) + b)
  | _, _ => b
  end.

(** rdp 42-54, [_log_sub_sign]. *)
Definition log_sub_sign (logx logy : logp) : bool * logp :=
  if lltb logy logx then
    (true, match logx, logy with
           | Some x, Some y => Some (x + ln (1 + - exp (y - x)))
           | _, _ => logx                    (* log1p(-exp(-inf)) = 0 *)
           end)
  else if lltb logx logy then
    (false, match logx, logy with
            | Some x, Some y => Some (y + ln (1 + - exp (x - y)))
            | _, _ => logy
            end)
  else (true, None).

(** rdp 57-63, [_log_comb], at natural numbers [k <= n]: scipy's gammaln(m + 1) is
    ln m!. *)
Definition lnfact (n : nat) : R := ln (INR (fact n)).
Definition log_comb (n k : nat) : R := lnfact n - lnfact k - lnfact (n - k).

(** x / (2 * sigma**2) for a non-zero (possibly infinite) sigma. *)
Definition over_two_var (x : R) (sigma : xr) : R :=
  match sigma with Fin s => x / (2 * (s * s)) | _ => 0 end.

(** rdp 66-78, [_compute_log_a_int]. *)
Definition log_a_int_term (q : R) (sigma : xr) (alpha i : nat) : R :=
  log_comb alpha i + INR i * ln q + (INR alpha - INR i) * ln (1 - q)
  + over_two_var (INR i * INR i - INR i) sigma.
Definition log_a_int (q : R) (sigma : xr) (alpha : Z) : logp :=
  fold_left (fun log_a i => log_add log_a (Some (log_a_int_term q sigma (Z.to_nat alpha) i)))
            (seq 0 (Z.to_nat (alpha + 1))) None.

(** [float.is_integer] on a finite float. *)
Definition is_integer (a : R) : bool := Reqb a (IZR (Rfloor a)).

(** rdp 351-357, [_compute_log_a].  [frac] stands for [_compute_log_a_frac] (81-134),
    a numerical series in scipy's log_ndtr, which is modelled in ModelFrac.v. *)
Definition log_a (frac : R -> xr -> xr -> xr) (q : R) (sigma alpha : xr) : xr :=
  match alpha with
  | Fin a => if is_integer a then xr_of_logp (log_a_int q sigma (Rfloor a)) else frac q sigma alpha
  | _ => frac q sigma alpha
  end.

(** A noise multiplier as it reaches the RDP formulas: Python raises a negative int
    to the power -0.5 as a complex number. *)
Inductive sigma_val := SNum (s : xr) | SComplex.

Definition isinf (x : xr) : bool := match x with PInf | MInf => true | _ => false end.
Definition isfinite (x : xr) : bool := match x with Fin _ => true | _ => false end.

(** List comprehension whose body may raise. *)
Fixpoint map_res {A B} (f : A -> res B) (l : list A) : res (list B) :=
  match l with
  | [] => Ok []
  | a :: l => let? b := f a in let? bs := map_res f l in Ok (b :: bs)
  end.

(** 2 * sigma**2 *)
Definition two_var (sigma : xr) : xr := xmul (Fin 2) (xmul sigma sigma).

(** rdp 360-397, [_compute_rdp_poisson_subsampled_gaussian]. *)
Definition poisson_order (frac : R -> xr -> xr -> xr) (q : R) (sigma alpha : xr) : xr :=
  if Reqb q 0 then Fin 0
  else if (isinf alpha || xeqb sigma (Fin 0))%bool then PInf
  else if Reqb q 1 then xdiv alpha (two_var sigma)
  else xdiv (log_a frac q sigma alpha) (xsub alpha (Fin 1)).
Definition rdp_poisson_gaussian (frac : R -> xr -> xr -> xr) (q : xr) (sigma : sigma_val)
  (orders : list xr) : res (list xr) :=
  match q with
  | Fin q =>
      if negb (Rleb 0 q && Rleb q 1) then Err ValueError
      else match sigma with
           | SComplex => Err TypeError
           | SNum sigma =>
               if xltb sigma (Fin 0) then Err ValueError
               else Ok (map (poisson_order frac q sigma) orders)
           end
  | _ => Err ValueError
  end.

(** rdp 280-318, [_stable_inplace_diff_in_log] on a vector of (sign, log magnitude)
    pairs, computing the first [n] differences in place.  The checks of shapes and
    types (304-307) always hold for the caller. *)
Fixpoint diff_in_log (n : nat) (l : list (bool * logp)) : list (bool * logp) :=
  match n, l with
  | S n, (s0, v0) :: (((s1, v1) :: _) as l') =>
      (if Bool.eqb s0 s1
       then let (s, v) := log_sub_sign v1 v0 in (if s1 then s else negb s, v)
       else (s1, log_add v0 v1)) :: diff_in_log n l'
  | _, _ => l
  end.

(** rdp 321-348, [_get_forward_diffs]. *)
Fixpoint forward_diffs_loop (k m : nat) (vec : list (bool * logp)) : list (bool * logp) :=
  match k with
  | O => []
  | S k => let vec := diff_in_log m vec in
           hd (false, Some 0) vec :: forward_diffs_loop k (m - 1) vec
  end.
Definition get_forward_diffs (fn : nat -> R) (n : nat) : list (bool * logp) :=
  let vec := (true, Some 0) :: map (fun i => (true, Some (fn i))) (seq 0 (n + 2)) in
  forward_diffs_loop (n + 2) (n + 2) vec.

(** rdp 471-541, [_compute_rdp_sample_wor_gaussian_int], for a non-zero real sigma and
    0 < q < 1.  [h] is 1 / (2 * sigma**2), so cgf(x) = x (x+1) h and func(x) = x h. *)
Definition wor_first (q h : R) (alpha : nat) : R :=
  2 * ln q + log_comb alpha 2 +
  Rmin (ln 4 + (2 * h + ln (1 + - exp (- (2 * h))))) (2 * h + ln 2).
Definition wor_cgf (h : R) (x : nat) : R := INR x * (INR x + 1) * h.
Definition wor_exact_term (q h : R) (alpha : nat) (deltas : list (bool * logp)) (i : nat) : logp :=
  if (i =? 2)%nat then Some (wor_first q h alpha)
  else
    let delta_lo := snd (nth (2 * (i / 2) - 1) deltas (false, Some 0)) in
    let delta_hi := snd (nth (2 * ((i + 1) / 2) - 1) deltas (false, Some 0)) in
    let s := match ladd delta_lo delta_hi with
             | Some x => Some (ln 4 + /2 * x)
             | None => None
             end in
    let s := lmin s (Some (ln 2 + wor_cgf h (i - 1))) in
    ladd s (Some (INR i * ln q + log_comb alpha i)).
Definition wor_stirling_term (q h : R) (alpha : nat) (i : nat) : logp :=
  if (i =? 2)%nat then Some (wor_first q h alpha)
  else Some (ln 2 + wor_cgf h (i - 1) + INR i * ln q + log_comb alpha i).
Definition wor_int (q h : R) (alpha : nat) : logp :=
  if (alpha =? 1)%nat then Some 0
  else
    let term := if (alpha <=? 256)%nat
                then wor_exact_term q h alpha (get_forward_diffs (wor_cgf h) alpha)
                else wor_stirling_term q h alpha in
    fold_left (fun log_a i => log_add log_a (term i)) (seq 2 (alpha - 1)) (Some 0).

(** rdp 430-468, [_compute_rdp_sample_wor_gaussian_scalar].  Division of Python floats
    by sigma = 0 raises; with an infinite sigma func(2.0) = 0 and log1p(-1) raises.  A
    complex sigma raises a TypeError (for q = 1 when the result is added). *)
Definition wor_order (q : R) (sigma : sigma_val) (alpha : xr) : res xr :=
  if negb (Rleb q 1 && Rleb 0 q && xleb (Fin 1) alpha) then Err AssertionError
  else if Reqb q 0 then Ok (Fin 0)
  else if Reqb q 1 then
    match sigma with SNum s => Ok (xdiv alpha (two_var s)) | SComplex => Err TypeError end
  else match alpha with
  | Fin a =>
      if Reqb a 1 then Ok NaN                                   (* 0 / (alpha - 1) *)
      else match sigma with
      | SComplex => Err TypeError
      | SNum (Fin s) =>
          if Reqb s 0 then Err ZeroDivisionError
          else
          let h := / (2 * (s * s)) in
          let f := Z.to_nat (Rfloor a) in
          if is_integer a then
            Ok (xdiv (xr_of_logp (wor_int q h f)) (Fin (a - 1)))
          else
            let c := Z.to_nat (Rceil a) in
            let t := a - IZR (Rfloor a) in
            Ok (xdiv (xadd (xmul (Fin (1 - t)) (xr_of_logp (wor_int q h f)))
                           (xmul (Fin t) (xr_of_logp (wor_int q h c))))
                     (Fin (a - 1)))
      | SNum _ => Err ValueError
      end
  | _ => Ok PInf
  end.
(** rdp 400-427, [_compute_rdp_sample_wor_gaussian]. *)
Definition rdp_wor_gaussian (q : R) (sigma : sigma_val) (orders : list xr) : res (list xr) :=
  map_res (wor_order q sigma) orders.

(** rdp 544-581, [_effective_gaussian_noise_multiplier]: a number, the offending
    subevent, or a complex number (a negative int to the power -0.5).  Python raises
    ZeroDivisionError for 0 to a negative power. *)
Inductive eff := EffNum (n : num) | EffBad (e : event num) | EffComplex.
Fixpoint effective_noise (e : event num) : res eff :=
  match e with
  | Gaussian s => Ok (EffNum s)
  | Composed es =>
      (fix go (l : list (event num)) (sum : R) : res eff :=
         match l with
         | [] => if Reqb sum 0 then Err ZeroDivisionError
                 else Ok (EffNum (PyFloat (/ sqrt sum)))
         | e :: l =>
             let? sigma := effective_noise e in
             match sigma with
             | EffNum (PyFloat s) =>
                 if Reqb s 0 then Err ZeroDivisionError else go l (sum + / (s * s))
             | EffNum PyInf => go l (sum + 0)
             | _ => Ok sigma
             end
         end) es 0
  | SelfComposed e c =>
      let? sigma := effective_noise e in
      match sigma with
      | EffNum (PyInt _) | EffBad _ | EffComplex => Ok sigma
      | EffNum n =>
          if (c =? 0)%Z then Err ZeroDivisionError
          else if (c <? 0)%Z then Ok EffComplex
          else Ok (EffNum match n with PyFloat s => PyFloat (s * / sqrt (IZR c)) | _ => PyInf end)
      end
  | _ => Ok (EffBad e)
  end.

(** rdp 584-628, [_compute_rdp_single_epoch_tree_aggregation]; a scalar infinity is
    added to every order by broadcasting. *)
Definition step_list (st : steps) : list Z :=
  match st with OneTree z => [z] | Trees l => l end.
Definition no_steps (st : steps) : bool :=
  match st with OneTree z => (z =? 0)%Z | Trees [] => true | Trees _ => false end.
Definition tree_depth (l : list Z) : Z :=
  Rceil (ln (IZR (fold_left Z.max l (hd 0%Z l) + 1)) / ln 2).
Definition rdp_tree (sigma : xr) (st : steps) (orders : list xr) : res (list xr) :=
  if xltb sigma (Fin 0) then Err ValueError
  else if xeqb sigma (Fin 0) then Ok (map (fun _ => PInf) orders)
  else if no_steps st then Err ValueError
  else if existsb (fun z => (z <? 0)%Z) (step_list st) then Err ValueError
  else Ok (map (fun a => xdiv (xmul a (Fin (IZR (tree_depth (step_list st))))) (two_var sigma)) orders).

(** rdp 631-653, [_expm1_over_x]. *)
Fixpoint expm1_terms (n : nat) (k : nat) (y x : R) : R :=
  match n with
  | O => 0
  | S n => let y := y / INR k in y + expm1_terms n (S k) (y * x) x
  end.
Definition expm1_over_x (x : R) : R :=
  if (Rltb x (-1/10) || Rltb (1/10) x)%bool then (exp x - 1) / x
  else expm1_terms 99 1 1 x.
(** rdp 656-675, [_logx_over_xm1], for x > 0. *)
Definition logx_over_xm1 (x : R) : R :=
  if (Rltb x (9/10) || Rltb (11/10) x)%bool then ln x / (x - 1)
  else rsum (fun k => (1 - x) ^ (k - 1) / INR k) (seq 1 99).
(** rdp 678-708, [_truncated_negative_binomial_mean]. *)
Definition tnb_mean (gamma shape : R) : res R :=
  if Rltb shape 0 then Err ValueError
  else if (Rleb gamma 0 || Rltb 1 gamma)%bool then Err ValueError
  else if Reqb shape 1 then Ok (1 / gamma)
  else if Reqb shape 0 then Ok (1 / (gamma * logx_over_xm1 gamma))
  else Ok (1 / (gamma * expm1_over_x (shape * ln gamma) * logx_over_xm1 gamma)).

(** rdp 711-745, [_gamma_truncated_negative_binomial].  Out of fuel is no result. *)
Fixpoint gamma_loop (fuel : nat) (shape mean tol gmin gmax : R) : res R :=
  match fuel with
  | O => Err OutOfFuel
  | S fuel =>
      if Rltb (gmin * (1 + tol)) gmax then
        let gamma := (gmin + gmax) / 2 in
        let? m := tnb_mean gamma shape in
        if Rltb m mean then gamma_loop fuel shape mean tol gmin gamma
        else gamma_loop fuel shape mean tol gamma gmax
      else Ok gmin
  end.
Definition gamma_tnb (fuel : nat) (shape : R) (mean : xr) (tol : R) : res R :=
  if Rltb shape 0 then Err ValueError
  else if xltb mean (Fin 1) then Err ValueError
  else match mean with
       | Fin mean =>
           if Reqb shape 1 then Ok (1 / mean)
           else gamma_loop fuel shape mean tol 0 (Rmin 1 (2 * (shape + 1) / mean))
       | _ => if Reqb shape 1 then Ok 0 else gamma_loop fuel shape 0 tol 0 0
       end.

(** [math.log1p], [math.expm1], [math.exp], [math.log] on the arguments that occur. *)
Definition xlog (x : xr) : xr := match x with Fin a => Fin (ln a) | x => x end.
Definition xexp (x : xr) : xr :=
  match x with Fin a => Fin (exp a) | PInf => PInf | MInf => Fin 0 | NaN => NaN end.
Definition xexpm1 (x : xr) : xr := xsub (xexp x) (Fin 1).
Definition xlog1p (x : xr) : xr := xlog (xadd (Fin 1) x).
(** Python [min(x, y)] and [max(x, y)]. *)
Definition pymin (x y : xr) : xr := if xltb y x then y else x.
Definition pymax (x y : xr) : xr := if xltb x y then y else x.

(** [np.argmin]: the first NaN, or the first minimum; [None] (ValueError) if empty. *)
Fixpoint argmin_from (l : list (xr * xr)) (best : xr * xr) : xr * xr :=
  match l with
  | [] => best
  | x :: l =>
      match fst best with
      | NaN => best
      | _ => match fst x with
             | NaN => x
             | _ => argmin_from l (if xltb (fst x) (fst best) then x else best)
             end
      end
  end.
Definition argmin (l : list (xr * xr)) : res (xr * xr) :=
  match l with [] => Err ValueError | x :: l => Ok (argmin_from l x) end.

(** rdp 162-215, [compute_delta]: returns (delta, order). *)
Definition logdelta_of_order (epsilon a r : xr) : xr :=
  let logdelta :=
    if xltb r (Fin 0) then MInf
    else if xeqb r (Fin 0) then MInf
    else xmul (Fin (/2)) (xlog1p (xneg (xexp (xneg r)))) in
  if xltb (Fin (101/100)) a then
    pymin logdelta
      (xsub (xmul (xsub a (Fin 1)) (xadd (xsub r epsilon) (xlog1p (xdiv (Fin (-1)) a)))) (xlog a))
  else logdelta.
Definition compute_delta (orders rdp : list xr) (epsilon : xr) : res (xr * xr) :=
  if xltb epsilon (Fin 0) then Err ValueError
  else if negb (length orders =? length rdp)%nat then Err ValueError
  else
    let? logdeltas := map_res (fun ar => if xltb (fst ar) (Fin 1) then Err ValueError
                                         else Ok (logdelta_of_order epsilon (fst ar) (snd ar), fst ar))
                              (combine orders rdp) in
    let? best := argmin logdeltas in
    Ok (pymin (xexp (fst best)) (Fin 1), snd best).

(** rdp 218-277, [compute_epsilon]: returns (epsilon, order). *)
Definition eps_of_order (delta : R) (a r : xr) : xr :=
  if xltb r (Fin 0) then Fin 0
  else if xltb (Fin 0) (xadd (Fin (delta * delta)) (xexpm1 (xneg r))) then Fin 0
  else if xltb (Fin (101/100)) a then
    xsub (xadd r (xlog1p (xdiv (Fin (-1)) a)))
         (xdiv (xlog (xmul (Fin delta) a)) (xsub a (Fin 1)))
  else PInf.
Definition compute_epsilon (orders rdp : list xr) (delta : R) : res (xr * xr) :=
  if Rltb delta 0 then Err ValueError
  else if Reqb delta 0 then
    if forallb (fun r => xeqb r (Fin 0)) rdp then Ok (Fin 0, Fin 0) else Ok (PInf, Fin 0)
  else if negb (length orders =? length rdp)%nat then Err ValueError
  else
    let? eps := map_res (fun ar => if xltb (fst ar) (Fin 1) then Err ValueError
                                   else Ok (eps_of_order delta (fst ar) (snd ar), fst ar))
                        (combine orders rdp) in
    let? best := argmin eps in
    Ok (pymax (Fin 0) (fst best), snd best).

(** rdp 748-821, [_compute_rdp_repeat_and_select]. *)
Definition rs_poisson_order (orders rdp : list xr) (mean : xr) (ar : xr * xr) : res xr :=
  let (a, r) := ar in
  if xleb a (Fin 1) then Ok PInf
  else
    let epshat := xlog1p (xdiv (Fin 1) (xsub a (Fin 1))) in
    let? d := compute_delta orders rdp epshat in
    Ok (xadd (xadd r (xmul mean (fst d))) (xdiv (xlog mean) (xsub a (Fin 1)))).
(** [np.min]: NaN if there is one. *)
Definition npmin (l : list xr) : res xr :=
  let? b := argmin (map (fun x => (x, x)) l) in Ok (fst b).
Definition rs_tnb_order (mean c : xr) (ar : xr * xr) : xr :=
  let (a, r) := ar in
  if xltb (Fin 1) a then xadd (xadd r (xdiv (xlog mean) (xsub a (Fin 1)))) c else PInf.
(** Python [min] of a non-empty generator. *)
Definition pymin_list (l : list xr) : res xr :=
  match l with [] => Err ValueError | x :: l => Ok (fold_left pymin l x) end.
(** 815-818: position by position, in place, seeing the positions already updated. *)
Fixpoint rs_monotone (orders : list xr) (done : list (xr * xr)) (todo : list (xr * xr)) : res (list xr) :=
  match todo with
  | [] => Ok (map snd done)
  | (a, x) :: todo =>
      let? m := pymin_list (map snd (filter (fun bx => xleb a (fst bx)) (done ++ (a, x) :: todo))) in
      rs_monotone orders (done ++ [(a, m)]) todo
  end.
Definition rdp_repeat_and_select (fuel : nat) (orders rdp : list xr) (mean shape : xr) : res (list xr) :=
  if xltb shape (Fin 0) then Err ValueError
  else if xltb mean (Fin 1) then Err ValueError
  else if negb (length orders =? length rdp)%nat then Err ValueError
  else match shape with
  | Fin s =>
      let? gamma := gamma_tnb fuel s mean (1 / 10 ^ 9) in
      if Rleb gamma 0 then Err ValueError else
      let? m := npmin (map (fun ar => xsub (xmul (xsub (Fin 1) (xdiv (Fin 1) (fst ar))) (snd ar))
                                           (xdiv (Fin (ln gamma)) (fst ar)))
                           (combine orders rdp)) in
      let c := xmul (Fin (1 + s)) m in
      let out := map (rs_tnb_order mean c) (combine orders rdp) in
      rs_monotone orders [] (combine orders out)
  | _ => map_res (rs_poisson_order orders rdp mean) (combine orders rdp)
  end.

(** rdp 824-861, [_laplace_rdp]. *)
Definition laplace_rdp (eps : R) (order : xr) : res xr :=
  if Rltb eps 0 then Err ValueError
  else match order with
  | Fin a =>
      if Rltb a 1 then Err ValueError
      else if Reqb a 1 then Ok (Fin (eps + (exp (- eps) - 1)))
      else if Rltb a (11/10) then
        let c := (exp (eps * (1 - 2 * a)) - 1) / (2 * a - 1) in
        let v := - c * (a - 1) in
        Ok (Fin (eps + c * rsum (fun k => v ^ (k - 1) / INR k) (seq 1 99)))
      else Ok (Fin (eps + ln (1 + (a - 1) * (exp (eps * (1 - 2 * a)) - 1) / (2 * a - 1)) / (a - 1)))
  | _ => Err ValueError
  end.

(** [special.logsumexp(a, b)] for a positive sum. *)
Definition logsumexp (l : list (R * R)) : R := ln (rsum (fun ab => snd ab * exp (fst ab)) l).

(** rdp 864-896, [_randomized_response_rdp_replace_special]. *)
Definition rr_rdp_special (p : R) (k : Z) (alpha : xr) : res xr :=
  if xleb alpha (Fin 1) then Err ValueError
  else if ((k =? 1)%Z || Reqb p 1)%bool then Ok (Fin 0)
  else if Reqb p 0 then Ok PInf
  else
    let log_1 := ln (IZR k * (1 - p) + p) in
    let log_2 := ln p in
    match alpha with
    | Fin a =>
        let bound x := logsumexp [(x * log_1, 1 / IZR k); (x * log_2, 1 - 1 / IZR k)] in
        Ok (Fin (Rmax (bound a) (bound (1 - a)) / (a - 1)))
    | NaN => Ok NaN
    | _ => Ok (Fin (Rmax log_1 (- log_2)))
    end.

(** rdp 899-935, [_randomized_response_rdp_replace_one]. *)
Definition rr_rdp_one (p : R) (k : Z) (alpha : xr) : res xr :=
  if xleb alpha (Fin 1) then Err ValueError
  else if ((k =? 1)%Z || Reqb p 1)%bool then Ok (Fin 0)
  else if Reqb p 0 then Ok PInf
  else
    let log_1 := ln (IZR k / p - IZR k + 1) in
    match alpha with
    | Fin a =>
        Ok (Fin (logsumexp [(a * log_1, p / IZR k); (- a * log_1, 1 - p + p / IZR k);
                            (0, (1 - 2 / IZR k) * p)] / (a - 1)))
    | NaN => Ok NaN
    | _ => Ok (Fin log_1)
    end.

(** rdp 938-968, [_compute_randomized_response_rdp]. *)
Definition rdp_randomized_response (p : xr) (k : Z) (orders : list xr) (rel : relation)
  : res (list xr) :=
  match p with
  | Fin p =>
      if (Rltb p 0 || Rltb 1 p)%bool then Err ValueError
      else if (k <? 1)%Z then Err ValueError
      else map_res ((if relation_eqb rel REPLACE_ONE then rr_rdp_one else rr_rdp_special) p k) orders
  | _ => Err ValueError
  end.
