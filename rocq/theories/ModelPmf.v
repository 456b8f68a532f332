(** Model of python/dp_accounting/dp_accounting/pld/pld_pmf.py.
    In comments, [pld_pmf] is that file. *)
From Verif Require Import Base XReal Exn PyDict ModelCommon.

(** pld_pmf 35 *)
Definition MAX_PMF_SPARSE_SIZE : Z := 1000.

(** pld_pmf 238-242 PLDPmf.__init__, 323-327 DensePLDPmf, 452-455 SparsePLDPmf *)
Inductive body :=
| Sparse (loss_probs : dict)
| Dense (lower_loss : Z) (probs : list R).
Record pmf := mkPmf {
  discretization : R;
  infinity_mass : R;
  pessimistic_estimate : bool;
  pmf_body : body }.

(** pld_pmf 330-331, 458-459: size *)
Definition pmf_size (p : pmf) : nat :=
  match pmf_body p with Sparse d => length d | Dense _ l => length l end.

(** Losses (in units of the discretization) in ascending order with their
    probabilities: pld_pmf 372 for the dense and 512-517 for the sparse class. *)
Definition losses_probs (p : pmf) : list (Z * R) :=
  match pmf_body p with
  | Sparse d => map (fun k => (k, dget0 d k)) (zsort (map fst d))
  | Dense lower l => combine (zrange lower (length l)) l
  end.

(** The losses as floats. *)
Definition loss_floats (p : pmf) : list (R * R) :=
  map (fun kv => (IZR (fst kv) * discretization p, snd kv)) (losses_probs p).

(** pld_pmf 38-60 _get_delta_for_epsilon (epsilon may be infinite; NaN selects
    no loss). *)
Definition delta_for_epsilon (inf : R) (lps : list (R * R)) (eps : xr) : R :=
  match eps with
  | Fin e => inf + rsum (fun lp => - (exp (e - fst lp) - 1) * snd lp)
                        (filter (fun lp => Rltb e (fst lp)) lps)
  | PInf | NaN => inf
  | MInf => inf + rsum snd lps
  end.

(** pld_pmf 79-82: [np.all(np.diff(epsilons) >= 0)] (inf - inf is NaN). *)
Definition diff_nonneg (x y : xr) : bool :=
  match x, y with
  | Fin a, Fin b => Rleb a b
  | Fin _, PInf => true
  | MInf, Fin _ | MInf, PInf => true
  | _, _ => false
  end.
Fixpoint eps_sorted (l : list xr) : bool :=
  match l with
  | x :: ((y :: _) as l') => diff_nonneg x y && eps_sorted l'
  | _ => true
  end.

(** pld_pmf 97-114: the two-pointer loop.  Both sequences are given in
    descending order; results are accumulated in ascending order.  (A NaN
    epsilon would yield NaN in numpy; the model's value there is arbitrary.) *)
Definition vec_delta (inf upper lower : R) (e : xr) : R :=
  match e with Fin e => upper - exp e * lower | MInf => upper | _ => inf end.
Fixpoint vec_loop (inf : R) (reps : list xr) : list (R * R) -> R -> R -> list R -> list R :=
  match reps with
  | [] => fun _ _ _ acc => acc
  | PInf :: reps' => fun rl up low acc => vec_loop inf reps' rl up low (inf :: acc)
  | e :: reps' =>
      fix inner (rl : list (R * R)) (up low : R) (acc : list R) : list R :=
        match rl with
        | [] => vec_loop inf reps' [] up low (vec_delta inf up low e :: acc)
        | (loss, prob) :: rl' =>
            if xleb (Fin loss) e
            then vec_loop inf reps' rl up low (vec_delta inf up low e :: acc)
            else inner rl' (up + prob) (low + prob * exp (- loss)) acc
        end
  end.

(** pld_pmf 63-114 _get_delta_for_epsilon_vectorized *)
Definition delta_for_epsilon_vectorized (inf : R) (lps : list (R * R)) (eps : list xr)
    : res (list R) :=
  if eps_sorted eps then Ok (vec_loop inf (rev eps) (rev lps) inf 0 [])
  else Err ValueError.

(** pld_pmf 137-153: loop and final answer of _get_epsilon_for_delta *)
Definition eps_finish (mu ml delta : R) : res xr :=
  if Rleb mu (ml + delta) then Ok (Fin 0)
  else if Reqb ml 0 then Err ZeroDivisionError
  else Ok (Fin (ln ((mu - delta) / ml))).
Fixpoint eps_loop (delta : R) (rl : list (R * R)) (mu ml : R) : res xr :=
  match rl with
  | [] => eps_finish mu ml delta
  | (loss, prob) :: rl' =>
      if (Rltb delta mu && Rltb 0 ml && Rleb loss (ln ((mu - delta) / ml)))%bool
      then eps_finish mu ml delta
      else
        let mu' := mu + prob in
        let ml' := ml + exp (- loss) * prob in
        if (Rleb delta mu' && Reqb ml' 0)%bool then Ok (Fin (Rmax 0 loss))
        else eps_loop delta rl' mu' ml'
  end.

(** pld_pmf 117-153 _get_epsilon_for_delta *)
Definition epsilon_for_delta (inf : R) (rl : list (R * R)) (delta : R) : res xr :=
  if Rltb delta inf then Ok PInf else eps_loop delta rl inf 0.

(** pld_pmf 179-187 _find_prefix_to_truncate *)
Definition find_prefix (l : list R) (thr : R) : nat := skip_prefix thr 0 l.

(** pld_pmf 156-208 _truncate_tails: (offset, truncated list, mass to infinity);
    assigning to the first or last element of an empty array raises IndexError. *)
Definition truncate_tails (probs : list R) (tail : R) (pess : bool)
    : res (nat * list R * R) :=
  if Reqb tail 0 then Ok (0%nat, probs, 0) else
  let left_idx := find_prefix probs (tail / 2) in
  let right_idx := (length probs - find_prefix (rev probs) (tail / 2))%nat in
  let right_idx := Nat.max right_idx (left_idx + 1) in
  let left_mass := rsum (fun x => x) (firstn left_idx probs) in
  let right_mass := rsum (fun x => x) (skipn right_idx probs) in
  let truncated := firstn (right_idx - left_idx) (skipn left_idx probs) in
  if pess then
    match truncated with
    | [] => Err IndexError
    | x :: rest => Ok (left_idx, (x + left_mass) :: rest, right_mass)
    end
  else
    match rev truncated with
    | [] => Err IndexError
    | x :: rest => Ok (left_idx, rev ((x + right_mass) :: rest), 0)
    end.

(** pld_pmf 298-312 validate_composable *)
Definition same_class (p q : pmf) : bool :=
  match pmf_body p, pmf_body q with
  | Sparse _, Sparse _ | Dense _ _, Dense _ _ => true
  | _, _ => false
  end.
Definition validate_composable (p q : pmf) : res unit :=
  if negb (same_class p q) then Err ValueError
  else if negb (Reqb (discretization p) (discretization q)) then Err ValueError
  else if negb (Bool.eqb (pessimistic_estimate p) (pessimistic_estimate q))
       then Err ValueError
  else Ok tt.

(** pld_pmf 342-343 (and 403-404, 473-474): combined infinity mass *)
Definition combine_inf (i1 i2 : R) : R := i1 + i2 - i1 * i2.

(** pld_pmf 467-472: quadratic convolution of two dictionaries *)
Definition sparse_convolve (d1 d2 : dict) : dict :=
  fold_left (fun c kv1 =>
    fold_left (fun c kv2 => dadd c (fst kv1 + fst kv2) (snd kv1 * snd kv2)) d2 c) d1 [].

(** DensePLDPmf.compose 333-348, SparsePLDPmf.compose 461-484 *)
Definition pmf_compose (p q : pmf) (tail : R) : res pmf :=
  let? _ := validate_composable p q in
  let inf := combine_inf (infinity_mass p) (infinity_mass q) in
  match pmf_body p, pmf_body q with
  | Dense lo1 l1, Dense lo2 l2 =>
      let? (offset, probs, right_tail) :=
        truncate_tails (convolve l1 l2) tail (pessimistic_estimate p) in
      Ok (mkPmf (discretization p) (inf + right_tail) (pessimistic_estimate p)
                (Dense (lo1 + lo2 + Z.of_nat offset) probs))
  | Sparse d1, Sparse d2 =>
      let convolution := sparse_convolve d1 d2 in
      let sorted_losses := zsort (map fst convolution) in
      let probs := map (dget0 convolution) sorted_losses in
      let? (offset, probs, right_mass) :=
        truncate_tails probs tail (pessimistic_estimate p) in
      let sorted_losses := firstn (length probs) (skipn offset sorted_losses) in
      Ok (mkPmf (discretization p) (inf + right_mass) (pessimistic_estimate p)
                (Sparse (dict_of (combine sorted_losses probs))))
  | _, _ => Err ValueError
  end.

(** SparsePLDPmf.to_dense_pmf 542-546, DensePLDPmf.to_dense_pmf 389-390 *)
Definition to_dense (p : pmf) : res pmf :=
  match pmf_body p with
  | Dense _ _ => Ok p
  | Sparse d =>
      let? (lower, probs) := dictionary_to_list d in
      Ok (mkPmf (discretization p) (infinity_mass p) (pessimistic_estimate p)
                (Dense lower probs))
  end.

(** DensePLDPmf.self_compose 350-367; [math.log1p] raises ValueError for an
    argument at most -1. *)
Definition dense_self_compose (fast_len : nat -> nat) (p : pmf) (lower_loss : Z)
    (probs : list R) (num_times : Z) (tail : R) : res pmf :=
  if (num_times <=? 0)%Z then Err ValueError else
  let? (trunc_lower, out) := self_convolve fast_len probs num_times tail in
  if Rleb 1 (infinity_mass p) then Err ValueError else
  let inf_prob := tail - (exp (IZR num_times * ln (1 + - infinity_mass p)) - 1) in
  Ok (mkPmf (discretization p) inf_prob (pessimistic_estimate p)
            (Dense (lower_loss * num_times + trunc_lower) out)).

(** SparsePLDPmf.self_compose 504-510: the loop for i in range(2, num_times+1);
    [todo] is the number of compositions left. *)
Fixpoint sparse_self_compose_loop (p result : pmf) (todo : nat) (tail : R) : res pmf :=
  match todo with
  | O => Ok result
  | S O => pmf_compose result p tail
  | S todo => let? r := pmf_compose result p 0 in sparse_self_compose_loop p r todo tail
  end.

(** self_compose: 350-367 and 486-510 *)
Definition pmf_self_compose (fast_len : nat -> nat) (p : pmf) (num_times : Z) (tail : R)
    : res pmf :=
  match pmf_body p with
  | Dense lower probs => dense_self_compose fast_len p lower probs num_times tail
  | Sparse d =>
      if (num_times <=? 0)%Z then Err ValueError
      else if (num_times =? 1)%Z then Ok p
      else if (MAX_PMF_SPARSE_SIZE <? Z.of_nat (length d) ^ num_times)%Z then
        let? q := to_dense p in
        match pmf_body q with
        | Dense lower probs => dense_self_compose fast_len q lower probs num_times tail
        | Sparse _ => Err TypeError
        end
      else sparse_self_compose_loop p p (Z.to_nat (num_times - 1)) tail
  end.

(** get_delta_for_epsilon 369-378, 519-527 *)
Definition pmf_delta (p : pmf) (eps : xr) : R :=
  delta_for_epsilon (infinity_mass p) (loss_floats p) eps.
Definition pmf_delta_vectorized (p : pmf) (eps : list xr) : res (list R) :=
  delta_for_epsilon_vectorized (infinity_mass p) (loss_floats p) eps.

(** get_epsilon_for_delta: 380-387 counts down from the upper loss,
    529-533 reverses the sorted losses. *)
Definition reversed_losses (p : pmf) : list (R * R) :=
  match pmf_body p with
  | Dense lower l =>
      let upper := IZR (lower + Z.of_nat (length l) - 1) * discretization p in
      combine (map (fun i => upper - INR i * discretization p) (seq 0 (length l))) (rev l)
  | Sparse _ => rev (loss_floats p)
  end.
Definition pmf_epsilon (p : pmf) (delta : R) : res xr :=
  epsilon_for_delta (infinity_mass p) (reversed_losses p) delta.

(** pld_pmf 422-423: [while self_loss(i) + other_loss(j) < epsilon: i += 1] *)
Fixpoint adv_i (fuel : nat) (loss1 : Z -> R) (oj eps : R) (i : Z) : res Z :=
  if Rltb (loss1 i + oj) eps then
    match fuel with O => Err OutOfFuel | S fuel => adv_i fuel loss1 oj eps (i + 1) end
  else Ok i.
(** pld_pmf 426-429 *)
Fixpoint adv_j (fuel : nat) (si : R) (loss2 : Z -> R) (l2 : list R) (eps : R)
    (j : Z) (up low : R) : Z * R * R :=
  match fuel with
  | O => (j, up, low)
  | S fuel =>
      if ((0 <=? j)%Z && Rleb eps (si + loss2 (j - 1)%Z))%bool then
        let pj := nth (Z.to_nat j) l2 0 in
        adv_j fuel si loss2 l2 eps (j - 1) (up + pj) (low + pj * exp (- loss2 j))
      else (j, up, low)
  end.
(** pld_pmf 434-440: one round of the for loop *)
Definition composed_step (loss1 loss2 : Z -> R) (l1 l2 : list R) (eps : R)
    (st : Z * R * R * R) (i : Z) : Z * R * R * R :=
  let '(j, up, low, delta) := st in
  let pj := nth (Z.to_nat j) l2 0 in
  let up := if (0 <=? j)%Z then up + pj else up in
  let low := if (0 <=? j)%Z then low + pj * exp (- loss2 j) else low in
  ((j - 1)%Z, up, low,
   delta + nth (Z.to_nat i) l1 0 * (up - exp (eps - loss1 i) * low)).

(** get_delta_for_epsilon_for_composed_pld: 392-442 and 535-540 *)
Definition pmf_composed_delta (p q : pmf) (eps : R) : res R :=
  let? p := to_dense p in
  let? q := to_dense q in
  let? _ := validate_composable p q in
  match pmf_body p, pmf_body q with
  | Dense lo1 l1, Dense lo2 l2 =>
      let loss1 := fun i => IZR (i + lo1) * discretization p in
      let loss2 := fun i => IZR (i + lo2) * discretization p in
      let n1 := Z.of_nat (length l1) in
      let n2 := Z.of_nat (length l2) in
      let delta := combine_inf (infinity_mass p) (infinity_mass q) in
      if Rleb (loss1 (n1 - 1)%Z + loss2 (n2 - 1)%Z) eps then Ok delta else
      let? i := adv_i (length l1) loss1 (loss2 (n2 - 1)%Z) eps 0 in
      let '(j, up, low) := adv_j (length l2) (loss1 i) loss2 l2 eps (n2 - 1) 0 0 in
      let '(_, _, _, delta) :=
        fold_left (composed_step loss1 loss2 l1 l2 eps)
                  (zrange i (Z.to_nat (n1 - i))) (j, up, low, delta) in
      Ok delta
  | _, _ => Err TypeError
  end.

(** pld_pmf 549-576 create_pmf *)
Definition create_pmf (d : dict) (disc inf : R) (pess : bool) : res pmf :=
  if (Z.of_nat (length d) <=? MAX_PMF_SPARSE_SIZE)%Z
  then Ok (mkPmf disc inf pess (Sparse d))
  else
    let? (lower, probs) := dictionary_to_list d in
    Ok (mkPmf disc inf pess (Dense lower probs)).

(** pld_pmf 785-810 compose_pmfs *)
Definition compose_pmfs (p q : pmf) (tail : R) : res pmf :=
  match pmf_body p, pmf_body q with
  | Sparse _, Sparse _ =>
      if (Z.of_nat (pmf_size p) * Z.of_nat (pmf_size q) <=? MAX_PMF_SPARSE_SIZE)%Z
      then pmf_compose p q tail
      else
        let? p := to_dense p in let? q := to_dense q in pmf_compose p q tail
  | _, _ => let? p := to_dense p in let? q := to_dense q in pmf_compose p q tail
  end.
