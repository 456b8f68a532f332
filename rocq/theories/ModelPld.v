(** Model of class PrivacyLossDistribution in
    python/dp_accounting/dp_accounting/pld/privacy_loss_distribution.py.
    In comments, [pld] is that file. *)
From Verif Require Import Base XReal Exn PyDict ModelCommon ModelPmf.

(** pld 96-102 __init__ ([pmf_add] defaults to [pmf_remove]) *)
Record pld := mkPld {
  pmf_remove : pmf;
  pmf_add : pmf;
  symmetric : bool }.
Definition new_pld (rem : pmf) (add : option pmf) : pld :=
  mkPld rem (match add with Some a => a | None => rem end)
        (match add with Some _ => false | None => true end).

(** pld 104-162 create_from_rounded_probability *)
Definition create_from_rounded_probability (d : dict) (inf disc : R) (pess : bool)
    (d_add : option dict) (inf_add : option R) (sym : bool) : res pld :=
  let? rem := create_pmf d disc inf pess in
  if sym then
    match d_add, inf_add with
    | None, None => Ok (new_pld rem None)
    | _, _ => Err ValueError
    end
  else
    match d_add, inf_add with
    | Some da, Some ia =>
        let? add := create_pmf da disc ia pess in
        Ok (new_pld rem (Some add))
    | _, _ => Err ValueError
    end.

(** pld 517-538 get_delta_for_epsilon, scalar argument *)
Definition pld_delta (D : pld) (eps : xr) : R :=
  let dr := pmf_delta (pmf_remove D) eps in
  if symmetric D then dr else Rmax dr (pmf_delta (pmf_add D) eps).

(** pld 517-538 get_delta_for_epsilon, sequence argument ([np.maximum] is
    elementwise) *)
Definition pld_delta_vectorized (D : pld) (eps : list xr) : res (list R) :=
  let? dr := pmf_delta_vectorized (pmf_remove D) eps in
  if symmetric D then Ok dr else
  let? da := pmf_delta_vectorized (pmf_add D) eps in
  Ok (map (fun xy => Rmax (fst xy) (snd xy)) (combine dr da)).

(** Python [max(x, y)] on floats: [y if y > x else x]. *)
Definition xmax (x y : xr) : xr := if xltb x y then y else x.

(** pld 540-564 get_epsilon_for_delta *)
Definition pld_epsilon (D : pld) (delta : R) : res xr :=
  let? er := pmf_epsilon (pmf_remove D) delta in
  if symmetric D then Ok er else
  let? ea := pmf_epsilon (pmf_add D) delta in
  Ok (xmax er ea).

(** pld 566-581 validate_composable *)
Definition pld_validate_composable (D D' : pld) : res unit :=
  validate_composable (pmf_remove D) (pmf_remove D').

(** pld 583-610 compose *)
Definition pld_compose (D D' : pld) (tail : R) : res pld :=
  let? rem := compose_pmfs (pmf_remove D) (pmf_remove D') tail in
  if (symmetric D && symmetric D')%bool then Ok (new_pld rem None) else
  let? add := compose_pmfs (pmf_add D) (pmf_add D') tail in
  Ok (new_pld rem (Some add)).

(** pld 612-640 get_delta_for_epsilon_for_composed_pld *)
Definition pld_composed_delta (D D' : pld) (eps : R) : res R :=
  let? dr := pmf_composed_delta (pmf_remove D) (pmf_remove D') eps in
  if (symmetric D && symmetric D')%bool then Ok dr else
  let? da := pmf_composed_delta (pmf_add D) (pmf_add D') eps in
  Ok (Rmax dr da).

(** pld 642-661 self_compose ([fast_len] is scipy.fft.next_fast_len) *)
Definition pld_self_compose (fast_len : nat -> nat) (D : pld) (num_times : Z) (tail : R)
    : res pld :=
  let? rem := pmf_self_compose fast_len (pmf_remove D) num_times tail in
  if symmetric D then Ok (new_pld rem None) else
  let? add := pmf_self_compose fast_len (pmf_add D) num_times tail in
  Ok (new_pld rem (Some add)).

(** pld 664-679 identity *)
Definition identity (disc : R) : res pld :=
  create_from_rounded_probability [(0%Z, 1)] 0 disc true None None true.
