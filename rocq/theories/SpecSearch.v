(** Specification vocabulary for the searches. *)
From Verif Require Import Base XReal Exn TypesEvent ModelBuilder ModelAccountant ModelSearch.

(** Monotone functions on the real line, wherever they return a value. *)
Definition non_increasing (f : xr -> res xr) : Prop :=
  forall x y v w, x <= y -> f (Fin x) = Ok v -> f (Fin y) = Ok w -> xleb w v = true.
Definition non_decreasing (f : xr -> res xr) : Prop :=
  forall x y v w, x <= y -> f (Fin x) = Ok v -> f (Fin y) = Ok w -> xleb v w = true.

(** [f x <= value], as the searches see it: the value at [x] is not above [value]. *)
Definition meets (f : xr -> res xr) (value : xr) (x : R) : Prop :=
  exists v, f (Fin x) = Ok v /\ xltb value v = false.

Definition is_int (x : R) : Prop := exists z, x = IZR z.

(** A search range: finite from below, from above finite or open. *)
Definition in_range (l : R) (up : xr) (x : R) : Prop := l <= x /\ xleb (Fin x) up = true.

(** The arguments for which the search is specified: a real lower end, an upper end that
    is not below it or is infinite (then there is an initial guess), a positive initial
    guess, if any, that is not below the lower end, integers if the search is discrete. *)
Definition search_ok (l : R) (up : xr) (g : option R) (t : R) (disc : bool) : Prop :=
  0 <= t /\
  (match up with Fin u => l <= u | PInf => g <> None | _ => False end) /\
  (match g with Some g => 0 < g /\ l <= g | None => True end) /\
  (disc = true -> is_int l /\ (forall u, up = Fin u -> is_int u) /\ (forall x, g = Some x -> is_int x)).
Definition params_of (l : R) (up : xr) (g : option R) (t : R) (disc : bool) : search_params :=
  mkSearch (Fin l) up (option_map Fin g) (Fin t) disc.
(** The tolerance that applies. *)
Definition tol_of (t : R) (disc : bool) : R := if disc then 1 else t.

(** ** Sign changes *)
Definition positive (v : xr) : Prop := xltb (Fin 0) v = true.
Definition negative (v : xr) : Prop := xltb v (Fin 0) = true.
(** Both positive or both negative. *)
Definition same_sign (v w : xr) : Prop := positive v /\ positive w \/ negative v /\ negative w.
(** A function that never returns NaN. *)
Definition never_nan (f : R -> res xr) : Prop := forall x, f x <> Ok NaN.
(** The points of the widening search from [lower] and the guess: [lower], the guess, then
    each time twice as far from the last point. *)
Definition widen (lower guess : R) (k : nat) : R := lower + (guess - lower) * (2 ^ k - 1).

(** The epsilon an accountant reports for one event composed once. *)
Definition reports {S} (mc : bool -> S -> event num -> Z -> S * mc_out) (get_epsilon : S -> R -> res xr)
    (fresh : accountant S) (e : event num) (delta : R) (v : xr) : Prop :=
  exists A', acc_compose mc fresh (EventObj e) 1 = (A', Ok tt) /\ get_epsilon (acc_state A') delta = Ok v.

(** The parameter with the least noise that still meets the target: the event at [best]
    meets it; on one side of [best] every event strictly misses it, on the other every
    event meets it strictly (wherever an epsilon is reported). *)
Definition best_param (eps_of : R -> res xr) (target best : R) : Prop :=
  (exists v, eps_of best = Ok v /\ xleb v (Fin target) = true) /\
  ((forall x v, x < best -> eps_of x = Ok v -> xltb (Fin target) v = true) /\
   (forall x v, best < x -> eps_of x = Ok v -> xltb v (Fin target) = true) \/
   (forall x v, best < x -> eps_of x = Ok v -> xltb (Fin target) v = true) /\
   (forall x v, x < best -> eps_of x = Ok v -> xltb v (Fin target) = true)).
(** What a fresh accountant reports for the event of a parameter. *)
Definition fresh_epsilon {S} (mc : bool -> S -> event num -> Z -> S * mc_out) (get_epsilon : S -> R -> res xr)
    (fresh : accountant S) (e : event num) (delta : R) : res xr :=
  let (A', r) := acc_compose mc fresh (EventObj e) 1 in
  let? _ := r in get_epsilon (acc_state A') delta.
(** ... and for the event of the parameter [p]. *)
Definition param_epsilon {S} (mc : bool -> S -> event num -> Z -> S * mc_out) (get_epsilon : S -> R -> res xr)
    (fresh : accountant S) (make_event : num -> res (event num)) (p : num) (delta : R) : res xr :=
  let? e := make_event p in fresh_epsilon mc get_epsilon fresh e delta.


(** The tolerance of a calibration: the given one, at least 1 for integers. *)
Definition tolerance (discrete : bool) (tol : option R) : R :=
  match tol with None => if discrete then 1 else / 1000000 | Some t => if discrete then Rmax t 1 else t end.

(** The RDP accountant's [get_epsilon] as a function of its state. *)
Definition rdp_get_epsilon (orders : list xr) (s : list xr) (delta : R) : res xr :=
  rdp_epsilon orders (mkAcc s new_builder) delta.
