(** Model of the searches: python/dp_accounting/dp_accounting/pld/common.py 46-123
    ("common") and python/dp_accounting/dp_accounting/mechanism_calibration.py ("cal").
    Loops take fuel; running out of it is the outcome [OutOfFuel], which the code does
    not have. *)
From Verif Require Import Base XReal Exn TypesEvent ModelBuilder ModelAccountant.

(** common 46-63, BinarySearchParameters. *)
Record search_params := mkSearch {
  sp_lower : xr; sp_upper : xr; sp_guess : option xr; sp_tol : xr; sp_discrete : bool }.

(** Python [x // 2] on floats. *)
Definition xhalf_floor (x : xr) : xr :=
  match x with Fin a => Fin (IZR (Rfloor (a / 2))) | _ => NaN end.
(** Python [min(x, y)]: [y if y < x else x]. *)
Definition xmin (x y : xr) : xr := if xltb y x then y else x.

Section Inverse.
  (** The function to invert may raise. *)
  Context (func : xr -> res xr) (value : xr) (increasing : bool).

  (** common 90, 94, [check]. *)
  Definition check (v : xr) : bool := if increasing then xleb v value else xltb value v.

  (** common 98-102; [upper] is [upper_x], which the loop does not change. *)
  Fixpoint guess_loop (fuel : nat) (upper lower guess : xr) : res (xr * xr) :=
    match fuel with
    | O => Err OutOfFuel
    | S fuel =>
        if xltb guess upper then
          let? v := func guess in
          if check v then guess_loop fuel upper guess (xmul (Fin 2) guess)
          else Ok (lower, guess)
        else Ok (lower, guess)
    end.

  (** common 109-118. *)
  Fixpoint search_loop (fuel : nat) (discrete : bool) (tol lower upper : xr) : res (xr * xr) :=
    match fuel with
    | O => Err OutOfFuel
    | S fuel =>
        if xltb tol (xsub upper lower) then
          let mid := if discrete then xhalf_floor (xadd upper lower)
                     else xdiv (xadd upper lower) (Fin 2) in
          let? v := func mid in
          if check v then search_loop fuel discrete tol mid upper
          else search_loop fuel discrete tol lower mid
        else Ok (lower, upper)
    end.

  (** common 66-123, [inverse_monotone_function]; [None] is Python's None. *)
  Definition inverse_monotone_function (fuel : nat) (sp : search_params) : res (option xr) :=
    let lower := sp_lower sp in
    let upper := sp_upper sp in
    let? bad :=
      (if increasing then                                                 (* 89-92 *)
         if xeqb lower MInf then Ok false else let? v := func lower in Ok (xltb value v)
       else                                                               (* 93-96 *)
         if xeqb upper PInf then Ok false else let? v := func upper in Ok (xltb value v)) in
    if (bad : bool) then Ok None else
    let? lu :=
      match sp_guess sp with                                              (* 98-102 *)
      | None => Ok (lower, upper)
      | Some g => let? lg := guess_loop fuel upper lower g in
                  Ok (fst lg, xmin upper (snd lg))
      end in
    let tol := if sp_discrete sp then Fin 1 else sp_tol sp in             (* 104-107 *)
    let? r := search_loop fuel (sp_discrete sp) tol (fst lu) (snd lu) in
    Ok (Some (if increasing then fst r else snd r)).                      (* 120-123 *)
End Inverse.

Section Bracket.
  (** [epsilon_gap]; the points are finite floats, the values may be infinite or NaN. *)
  Context (f : R -> res xr).

  (** cal 85-96, the loop with [n] tries left. *)
  Fixpoint bracket_loop (n : nat) (gap lower upper : R) (lv uv : xr) : res (R * R) :=
    if xltb (Fin 0) (xmul lv uv) then
      match n with
      | O => Err NoBracketIntervalFoundError
      | S n =>
          let gap := gap * 2 in
          let? v := f (upper + gap) in
          bracket_loop n gap upper (upper + gap) uv v
      end
    else Ok (lower, upper).

  (** cal 53-96, [_search_for_explicit_bracket_interval]. *)
  Definition bracket_search (lower upper : R) : res (R * R) :=
    if Rleb upper lower then Err ValueError else
    let? lv := f lower in
    let? uv := f upper in
    bracket_loop 30 (upper - lower) lower upper lv uv.

  (** cal 99-149, [_bisect]; the recursion with both values known. *)
  Fixpoint bisect_go (fuel : nat) (tol lower upper : R) (lv uv : xr) : res R :=
    match fuel with
    | O => Err OutOfFuel
    | S fuel =>
        if xeqb lv (Fin 0) then Ok lower else
        if xeqb uv (Fin 0) then Ok upper else
        if xltb (Fin 0) (xmul lv uv) then Err ValueError else
        if Rleb (upper - lower) tol then Ok (if xltb lv (Fin 0) then lower else upper) else
        let middle := (lower + upper) / 2 in
        let? mv := f middle in
        if xeqb mv (Fin 0) then Ok middle
        else if xltb (xmul lv mv) (Fin 0) then bisect_go fuel tol lower middle lv mv
        else bisect_go fuel tol middle upper mv uv
    end.
  Definition bisect (fuel : nat) (lower upper tol : R) : res R :=
    let? lv := f lower in
    let? uv := f upper in
    bisect_go fuel tol lower upper lv uv.
End Bracket.

(** Python [round(x)]: to the nearest integer, halves to the even one. *)
Definition Rround (x : R) : Z :=
  let z := Rfloor x in
  if Rltb (x - IZR z) (1/2) then z
  else if Rltb (1/2) (x - IZR z) then (z + 1)%Z
  else if Z.even z then z else (z + 1)%Z.

(** cal 26-40, the bracket_interval argument ([BadInterval]: any other object). *)
Inductive interval := NoInterval | LowerAndGuess (lower guess : R) | Explicit (a b : R) | BadInterval.

(** What scipy's brentq does: it returns a root and a convergence flag, or raises. *)
Inductive brent_out := BrentRoot (root : R) (converged : bool) | BrentRaise (x : exn).

Section Calibrate.
  Context {S : Type} (mc : bool -> S -> event num -> Z -> S * mc_out)
          (get_epsilon : S -> R -> res xr).
  (** [make_fresh_accountant] returns identical accountants on each call, as its
      documentation requires; both arguments are callable;
      [make_event_from_param] may raise. *)
  Context (fresh : accountant S) (make_event : num -> res (event num)).
  Context (brentq : (R -> res xr) -> R -> R -> R -> brent_out).

  (** cal 234-241, [epsilon_gap]. *)
  Definition epsilon_gap (discrete : bool) (eps delta : R) (x : R) : res xr :=
    let? e := make_event (if discrete then PyInt (Rround x) else PyFloat x) in
    let (A, L) := acc_get_ledger fresh in
    match L with
    | NoOp =>
        let (A', r) := acc_compose mc A (EventObj e) 1 in
        let? _ := r in
        let? v := get_epsilon (acc_state A') delta in
        Ok (xsub v (Fin eps))
    | _ => Err NonEmptyAccountantError
    end.

  (** cal 152-290, [calibrate_dp_mechanism]. *)
  Definition calibrate (fuel : nat) (target_eps target_delta : R) (bi : interval)
      (discrete : bool) (tol : option R) : res num :=
    if Rltb target_eps 0 then Err ValueError else                            (* 216-218 *)
    if negb (Rleb 0 target_delta && Rleb target_delta 1) then Err ValueError else (* 220-222 *)
    let bi := match bi with NoInterval => LowerAndGuess 0 1 | _ => bi end in  (* 224-225 *)
    let? tol :=
      match tol with                                                         (* 227-232 *)
      | None => Ok (if discrete then 1 else / 1000000)
      | Some t => if discrete then Ok (Rmax t 1) else if Rleb t 0 then Err ValueError else Ok t
      end in
    let gap := epsilon_gap discrete target_eps target_delta in
    let? ab :=
      match bi with                                                          (* 243-248 *)
      | LowerAndGuess a b => bracket_search gap a b
      | Explicit a b => Ok (a, b)
      | _ => Err TypeError
      end in
    let (a, b) := (ab : R * R) in
    let? root :=
      match brentq gap a b tol with                                          (* 250-276 *)
      | BrentRaise x => Err x                                                (* ValueError again *)
      | BrentRoot _ false => Ok None
      | BrentRoot r true =>
          let? v := gap r in
          if xltb (Fin 0) v then
            let? v := gap (r + tol) in
            if xltb v (Fin 0) then Ok (Some (r + tol)) else
            let? v := gap (r - tol) in
            if xltb v (Fin 0) then Ok (Some (r - tol)) else Ok None
          else Ok (Some r)
      end in
    let? root :=
      match root with                                                        (* 278-285 *)
      | Some r => Ok r
      | None => bisect gap fuel a b tol
      end in
    Ok (if discrete then PyInt (Rround root) else PyFloat root).             (* 287-290 *)
End Calibrate.
