(** Model of the constructors of privacy loss distributions in
    python/dp_accounting/dp_accounting/pld/privacy_loss_distribution.py (pld) and
    python/dp_accounting/dp_accounting/pld/pld_pmf.py (pld_pmf). *)
From Verif Require Import Base XReal Exn PyDict TypesRelation ModelCommon ModelPmf ModelPld.

(** A log probability: finite, or None for -inf (pld 684-685; +inf and NaN are
    not log probabilities and are not modelled). *)
Definition logp := option R.
(** [math.exp(x)] of a log probability *)
Definition lexp (x : logp) : R := match x with Some x => exp x | None => 0 end.

(** Mapping[Any, float], pld 683-684: outcomes of any type with decidable
    equality [eqb]. *)
Definition odict (O : Type) := list (O * logp).
Section TwoPmfs.
  Context {O : Type} (eqb : O -> O -> bool).

  (** [d.get(outcome, -math.inf)] *)
  Fixpoint oget (d : odict O) (o : O) : logp :=
    match d with
    | [] => None
    | (o', x) :: d => if eqb o' o then x else oget d o
    end.

  (** pmf[v] = pmf.get(v, 0) + p on a dict with float keys, pld 746-748 *)
  Fixpoint radd (d : list (R * R)) (v p : R) : list (R * R) :=
    match d with
    | [] => [(v, 0 + p)]
    | (v', p') :: d => if Reqb v' v then (v', p' + p) :: d else (v', p') :: radd d v p
    end.

  (** pld 725-731: outcomes that occur only in the upper distribution *)
  Definition inf_loop (lower upper : odict O) : R :=
    fold_left (fun inf ox =>
      match oget lower (fst ox) with
      | None => inf + lexp (snd ox)
      | Some _ => inf
      end) upper 0.

  (** [x > bound] on log probabilities *)
  Definition above_bound (x bound : logp) : bool :=
    match x, bound with
    | Some x, Some b => Rltb b x
    | Some _, None => true
    | None, _ => false
    end.

  (** pld 734-752: one round of the loop over the lower distribution.  (A value
      above the bound is finite.) *)
  Definition loss_step (upper : odict O) (bound : logp) (pess : bool)
      (st : list (R * R) * R) (ox : O * logp) : list (R * R) * R :=
    let '(pmf, inf) := st in
    match snd ox with
    | None => (pmf, inf)
    | Some log_lower =>
        match oget upper (fst ox) with
        | Some log_upper =>
            if above_bound (Some log_upper) bound
            then (radd pmf (log_upper - log_lower) (exp log_upper), inf)
            else (pmf, if pess then inf + exp log_upper else inf)
        | None => (pmf, if pess then inf + 0 else inf)
        end
    end.

  (** pld 755-758; dividing by a zero interval raises ZeroDivisionError *)
  Definition round_fn (pess : bool) (x : R) : Z := if pess then Rceil x else Rfloor x.
  Definition round_pmf (pess : bool) (disc : R) (pmf : list (R * R)) : res dict :=
    if (Reqb disc 0 && negb (match pmf with [] => true | _ => false end))%bool
    then Err ZeroDivisionError
    else Ok (fold_left (fun d vp => dadd d (round_fn pess (fst vp / disc)) (snd vp)) pmf []).

  (** pld 719-759 _create_rounded_probability_mass_function *)
  Definition rounded_from_pmfs (lower upper : odict O) (pess : bool) (disc : R) (bound : logp)
      : res (R * dict) :=
    let '(pmf, inf) := fold_left (loss_step upper bound pess) lower ([], inf_loop lower upper) in
    let? d := round_pmf pess disc pmf in
    Ok (inf, d).

  (** pld 682-784 from_two_probability_mass_functions *)
  Definition from_two_pmfs (lower upper : odict O) (pess : bool) (disc : R) (bound : logp)
      (sym : bool) : res pld :=
    let? (inf, d) := rounded_from_pmfs lower upper pess disc bound in
    if sym then create_from_rounded_probability d inf disc pess None None true
    else
      let? (inf_add, d_add) := rounded_from_pmfs upper lower pess disc bound in
      create_from_rounded_probability d inf disc pess (Some d_add) (Some inf_add) false.
End TwoPmfs.

(** pld 993-1122 from_randomized_response *)
Definition from_randomized_response (p : R) (k : Z) (pess : bool) (disc : R) (rel : relation)
    : res pld :=
  if (Rleb p 0 || Rleb 1 p)%bool then Err ValueError else
  if (k <=? 1)%Z then Err ValueError else
  match rel with
  | ADD_OR_REMOVE_ONE => Err ValueError
  | REPLACE_ONE =>
      let u0 := ln (1 - p * (IZR k - 1) / IZR k) in
      let u1 := ln (p / IZR k) in
      let u2 := ln ((IZR k - 2) * p / IZR k) in
      let more := if (2 <? k)%Z then [(2%Z, Some u2)] else [] in
      from_two_pmfs Z.eqb ([(0%Z, Some u1); (1%Z, Some u0)] ++ more)
                    ([(0%Z, Some u0); (1%Z, Some u1)] ++ more) pess disc None true
  | REPLACE_SPECIAL =>
      from_two_pmfs Z.eqb
        [(0%Z, Some (- ln (IZR k))); (1%Z, Some (ln (1 + - (1 / IZR k))))]
        [(0%Z, Some (ln (1 - p * (IZR k - 1) / IZR k)));
         (1%Z, Some (ln ((IZR k - 1) * p / IZR k)))] pess disc None false
  end.

(** common.py 28-43 DifferentialPrivacyParameters.__post_init__ *)
Definition privacy_parameters (eps delta : R) : res (R * R) :=
  if Rltb eps 0 then Err ValueError else
  if (Rltb delta 0 || Rltb 1 delta)%bool then Err ValueError else Ok (eps, delta).

(** pld 1435-1472 from_privacy_parameters *)
Definition from_privacy_parameters (pp : R * R) (disc : R) : res pld :=
  let '(eps, delta) := pp in
  if Reqb disc 0 then Err ZeroDivisionError else
  let d := dset [] (Rceil (eps / disc)) ((1 - delta) / (1 + exp (- eps))) in
  let d := dadd d (Rceil (- eps / disc)) ((1 - delta) / (1 + exp eps)) in
  create_from_rounded_probability d delta disc true None None true.

(** pld 943-990 create_from_cdf.  [while] loops with fuel; the loop variable
    [value] is accumulated as in the code. *)
Fixpoint cdf_up (fuel : nat) (cdf : R -> R) (disc tail : R) (k : Z) (value : R) (d : dict) : res dict :=
  if Rltb (cdf value) (1 - tail / 2) then
    match fuel with
    | O => Err OutOfFuel
    | S fuel =>
        cdf_up fuel cdf disc tail (k + 1) (value + disc)
               (dset d k (cdf (value + disc) - cdf value))
    end
  else Ok d.
Fixpoint cdf_down (fuel : nat) (cdf : R -> R) (disc tail : R) (k : Z) (value : R) (d : dict) : res dict :=
  if Rltb (tail / 2) (cdf value) then
    match fuel with
    | O => Err OutOfFuel
    | S fuel =>
        cdf_down fuel cdf disc tail (k - 1) (value - disc)
                 (dset d k (cdf value - cdf (value - disc)))
    end
  else Ok d.
Definition create_from_cdf (fuel : nat) (cdf : R -> R) (pess : bool) (disc tail : R) : res pld :=
  let? d := cdf_up fuel cdf disc tail (if pess then 1 else 0) 0 [] in
  let? d := cdf_down fuel cdf disc tail (if pess then 0 else -1) 0 d in
  create_from_rounded_probability d (if pess then tail else 0) disc pess None None true.

(** [np.diff] *)
Fixpoint rdiff (l : list R) : list R :=
  match l with
  | x :: ((y :: _) as l') => (y - x) :: rdiff l'
  | _ => []
  end.
Fixpoint zdiff (l : list Z) : list Z :=
  match l with
  | x :: ((y :: _) as l') => (y - x)%Z :: zdiff l'
  | _ => []
  end.
Definition expm1 (x : R) : R := exp x - 1.

(** pld_pmf 579-671 create_pmf_pessimistic_connect_dots *)
Definition connect_dots (disc : R) (eps : list Z) (deltas : list R) : res pmf :=
  if (negb (length eps =? length deltas)%nat || (length eps =? 0)%nat)%bool then Err ValueError else
  let eps_diffs := map (fun z => IZR z * disc) (zdiff eps) in
  if existsb (fun x => Rleb x 0) eps_diffs then Err ValueError else
  if (existsb (fun x => Rltb x 0) deltas || existsb (fun x => Rltb 1 x) deltas)%bool
  then Err ValueError else
  let diffs := rdiff deltas in
  if existsb (fun x => Rltb 0 x) diffs then Err ValueError else
  let v1 := (1 - hd 0 deltas) ::
            map (fun de => fst de / expm1 (- snd de)) (combine diffs eps_diffs) in
  let v2 := map (fun de => fst de / expm1 (snd de)) (combine diffs eps_diffs) ++ [0] in
  let probs := map (fun yz => Rmax 0 (fst yz + snd yz)) (combine v1 v2) in
  create_pmf (dict_of (combine eps probs)) disc (last deltas 0) true.

(** pld_pmf 674-782 create_pmf_pessimistic_connect_dots_fixed_gap *)
Definition connect_dots_fixed_gap (disc : R) (lower upper : Z) (deltas : list R) : res pmf :=
  if (upper <? lower)%Z then Err ValueError else
  if negb (Z.of_nat (length deltas) =? upper - lower + 1)%Z then Err ValueError else
  if (existsb (fun x => Rltb x 0) deltas || existsb (fun x => Rltb 1 x) deltas)%bool
  then Err ValueError else
  if (lower =? upper)%Z then
    create_pmf [(lower, 1 - hd 0 deltas)] disc (hd 0 deltas) true
  else
  let diffs := rdiff deltas in
  if existsb (fun x => Rltb 0 x) diffs then Err ValueError else
  let first := 1 - hd 0 deltas + hd 0 diffs / expm1 disc in
  let middle := map (fun dd => (snd dd - fst dd * exp disc) / expm1 disc)
                    (combine (removelast diffs) (tl diffs)) in
  let final := last diffs 0 / expm1 (- disc) in
  let probs := map (fun x => Rmax 0 x) ((first :: middle) ++ [final]) in
  create_pmf (dict_of (combine (zrange lower (length deltas)) probs)) disc (last deltas 0) true.
