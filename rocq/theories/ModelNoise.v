(** Model of the searches for the smallest noise in
    python/dp_accounting/dp_accounting/pld/accountant.py ("acct"). The number of queries is a
    Python int; [fast_len] is scipy's next_fast_len; [fuel] bounds the loops of the search and of
    the constructors. *)
From Verif Require Import Base XReal Exn ModelPmf ModelPld ModelSearch ModelSmallest ModelMech.

(** pld 642, the default tail_mass_truncation of self_compose. *)
Definition default_tail : R := 1 / 10 ^ 15.
(** common 52-63: BinarySearchParameters(0, upper) with the defaults of the other fields. *)
Definition search_up_to (upper : R) : search_params := mkSearch (Fin 0) (Fin upper) None (Fin (1 / 10 ^ 7)) false.

(** acct 82-95, the constructor of [get_smallest_laplace_noise]; the points of the search are
    finite. *)
Definition laplace_for (fuel : nat) (eps : R) (n : Z) (s : R) (x : xr) : res pld :=
  if (n =? 0)%Z then Err ZeroDivisionError else
  match x with
  | Fin b => from_laplace_mechanism fuel b s true (1/10 * eps / IZR n) 1 true
  | _ => Err ValueError
  end.
(** acct 65-105 *)
Definition smallest_laplace_noise (fast_len : nat -> nat) (fuel : nat) (pp : R * R) (n : Z) (s : R) : res xr :=
  let eps := fst pp in
  if Reqb eps 0 then Err ZeroDivisionError else
  let upper := IZR n * s / eps in
  let? r := smallest_parameter fast_len default_tail fuel pp n (laplace_for fuel eps n s) (search_up_to upper) in
  Ok (match r with None => Fin upper | Some x => x end).

(** acct 129-138, the constructor of [get_smallest_discrete_laplace_noise]. *)
Definition discrete_laplace_for (fuel : nat) (s : Z) (x : xr) : res pld :=
  match x with
  | Fin i => if Reqb i 0 then Err ZeroDivisionError
             else from_discrete_laplace_mechanism fuel (1 / i) s true (1 / i) 1 true
  | _ => Err ValueError
  end.
(** acct 108-154 *)
Definition smallest_discrete_laplace_noise (fast_len : nat -> nat) (fuel : nat) (pp : R * R) (n s : Z) : res xr :=
  let eps := fst pp in
  if Reqb eps 0 then Err ZeroDivisionError else
  let? r := smallest_parameter fast_len default_tail fuel pp n (discrete_laplace_for fuel s)
              (search_up_to (IZR n * IZR s / eps)) in
  match r with
  | None => if (n * s =? 0)%Z then Err ZeroDivisionError else Ok (Fin (eps / (IZR n * IZR s)))
  | Some (Fin i) => if Reqb i 0 then Err ZeroDivisionError else Ok (Fin (1 / i))
  | Some x => Ok (xdiv (Fin 1) x)
  end.

(** acct 157-176; math.sqrt raises for a negative number. *)
Definition smallest_gaussian_noise (Phi ppf : R -> R) (fuel : nat) (pp : R * R) (n : Z) (s : R) : res xr :=
  if (n <? 0)%Z then Err ValueError else gaussian_from_guarantee Phi ppf fuel pp (s * sqrt (IZR n)) 1.

(** acct 203-215, the constructor of [get_smallest_subsampled_gaussian_noise]. *)
Definition gaussian_for (Phi ppf : R -> R) (fuel : nat) (eps : R) (n : Z) (s q : R) (x : xr) : res pld :=
  if (n =? 0)%Z then Err ZeroDivisionError else
  match x with
  | Fin sigma =>
      from_gaussian_mechanism Phi ppf fuel sigma s true (Rmin (1 / 10 ^ 3) (1/10 * eps / IZR n)) (-50) q true
  | _ => Err ValueError
  end.
(** acct 179-224 *)
Definition smallest_subsampled_gaussian_noise (Phi ppf : R -> R) (fast_len : nat -> nat) (fuel : nat) (pp : R * R)
    (n : Z) (s q : R) : res xr :=
  let? upper := smallest_gaussian_noise Phi ppf fuel pp n s in
  let? r := smallest_parameter fast_len default_tail fuel pp n (gaussian_for Phi ppf fuel (fst pp) n s q)
              (mkSearch (Fin 0) upper None (Fin (1 / 10 ^ 7)) false) in
  Ok (match r with Some x => x | None => upper end).
