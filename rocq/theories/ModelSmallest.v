(** Model of python/dp_accounting/dp_accounting/pld/accountant.py ("acct"). *)
From Coq Require Export Binomial.
From Verif Require Import Base XReal Exn TypesRelation ModelPmf ModelPld ModelMake ModelSearch.

(** acct 260-263: [delta_i] ([special.binom] is the binomial coefficient). *)
Definition delta_i (eps : R) (k : Z) (i : nat) : R :=
  fold_left (fun d l => d + Binomial.C (Z.to_nat k) l *
                            (exp (eps * (IZR k - INR l)) - exp (eps * (IZR k - 2 * INR i + INR l))))
            (seq 0 i) 0
  / (1 + exp eps) ^ Z.to_nat k.

(** acct 259-267, the loop for i from [i] down to 0. *)
Fixpoint advanced_loop (eps delta : R) (k : Z) (total_delta : R) (i : nat) : option R :=
  if Rleb (1 - (1 - delta) ^ Z.to_nat k * (1 - delta_i eps k i)) total_delta
  then Some (eps * (IZR k - 2 * INR i))
  else match i with O => None | S i => advanced_loop eps delta k total_delta i end.

(** acct 227-267, [advanced_composition]; for a negative number of queries the range of
    the loop is empty. *)
Definition advanced_composition (pp : R * R) (num_queries : Z) (total_delta : R) : option R :=
  let '(eps, delta) := pp in
  let k := num_queries in
  if (k <? 0)%Z then None
  else advanced_loop eps delta k total_delta (Z.to_nat (k / 2)).

(** acct 302-306, [get_total_epsilon_for_epsilon] followed by the comparison of its result
    with a float, which raises TypeError for None. *)
Definition total_epsilon_for (delta : R) (num_queries : Z) (total_delta : R) (x : xr) : res xr :=
  match x with
  | Fin e =>
      let? pp := privacy_parameters e delta in
      match advanced_composition pp num_queries total_delta with
      | Some t => Ok (Fin t)
      | None => Err TypeError
      end
  | _ => Err ValueError
  end.

(** Python [x ** n] for an int [n]; 0.0 to a negative power raises. *)
Definition pow_int (x : R) (n : Z) : res R :=
  if (n <? 0)%Z then
    if Reqb x 0 then Err ZeroDivisionError else Ok (/ x ^ Z.to_nat (- n))
  else Ok (x ^ Z.to_nat n).

(** acct 274-315, [get_smallest_epsilon_from_advanced_composition] for valid total
    parameters; the default tolerance of the search is 1e-7 (common.py 58). *)
Definition smallest_epsilon (fuel : nat) (total : R * R) (num_queries : Z) (delta : R)
    : res (option xr) :=
  let '(total_eps, total_delta) := total in
  let? w := pow_int (1 - delta) num_queries in
  if Rltb total_delta (1 - w) then Ok None
  else if (num_queries =? 0)%Z then Err ZeroDivisionError
  else inverse_monotone_function (total_epsilon_for delta num_queries total_delta)
         (Fin total_eps) true fuel
         (mkSearch (Fin (total_eps / IZR num_queries)) (Fin total_eps) None (Fin (1 / 10 ^ 7)) false).

(** acct 55-58, [get_delta_for_parameter]; [fast_len] is scipy's next_fast_len, [tail] the
    default tail_mass_truncation of self_compose (pld 642). *)
Definition delta_for_parameter (fast_len : nat -> nat) (tail eps : R) (num_queries : Z)
    (constructor : xr -> res pld) (x : xr) : res xr :=
  let? D := constructor x in
  let? Dn := pld_self_compose fast_len D num_queries tail in
  Ok (Fin (pld_delta Dn (Fin eps))).

(** acct 26-62, [get_smallest_parameter]. *)
Definition smallest_parameter (fast_len : nat -> nat) (tail : R) (fuel : nat) (pp : R * R)
    (num_queries : Z) (constructor : xr -> res pld) (sp : search_params) : res (option xr) :=
  inverse_monotone_function
    (delta_for_parameter fast_len tail (fst pp) num_queries constructor)
    (Fin (snd pp)) false fuel sp.
