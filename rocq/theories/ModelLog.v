(** Model of the log-space helpers of
    python/dp_accounting/dp_accounting/pld/common.py (cited as "common"). *)
From Verif Require Import Base XReal Exn ModelMake ModelRdp.

(** [np.log] and [np.log1p]: -inf at 0 and NaN below. *)
Definition np_log (x : xr) : xr :=
  match x with
  | Fin a => if Rltb 0 a then Fin (ln a) else if Reqb a 0 then MInf else NaN
  | PInf => PInf
  | _ => NaN
  end.
Definition np_log1p (x : xr) : xr := np_log (xadd (Fin 1) x).

(** common 324-327, [_log_add]. *)
Definition c_log_add (a b : xr) : xr :=
  let mn := pymin a b in
  let mx := pymax a b in
  xadd mx (np_log1p (xexp (xsub mn mx))).

(** common 330-334, [_log_sub]. *)
Definition c_log_sub (a b : xr) : res xr :=
  if xleb a b then Err ValueError
  else Ok (xadd a (np_log1p (xneg (xexp (xsub b a))))).

(** common 337-353, [log_a_times_exp_b_plus_c], for finite [a] and [c]. *)
Definition log_abc (a : R) (b : xr) (c : R) : res xr :=
  if Reqb a 0 then Ok (np_log (Fin c))
  else if Rltb a 0 then
    if Rleb c 0 then Err ValueError
    else c_log_sub (np_log (Fin c)) (xadd (np_log (Fin (- a))) b)
  else if xeqb b (Fin 0) then Ok (np_log (Fin (a + c)))
  else
    let d := xadd b (np_log (Fin a)) in
    if Reqb c 0 then Ok d
    else if Rltb c 0 then c_log_sub d (np_log (Fin (- c)))
    else Ok (c_log_add d (np_log (Fin c))).
