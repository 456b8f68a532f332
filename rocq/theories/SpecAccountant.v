(** Specification vocabulary for accountants. *)
From Verif Require Import Base XReal Exn TypesEvent TypesRelation SpecEvent ModelPld ModelRdp ModelAccountant.

(** [runs mc A h A']: from accountant [A], the compose calls of the history [h] (events
    with counts) all return normally and lead to [A']. *)
Inductive runs {S} (mc : bool -> S -> event num -> Z -> S * mc_out) :
  accountant S -> list (event num * Z) -> accountant S -> Prop :=
| runs_nil : forall A, runs mc A [] A
| runs_cons : forall A e n A1 h A',
    acc_compose mc A (EventObj e) n = (A1, Ok tt) -> runs mc A1 h A' -> runs mc A ((e, n) :: h) A'.

(** Every SelfComposed event that is composed, at any depth, has a positive count. *)
Fixpoint pos_counts (e : event num) : Prop :=
  match e with
  | SelfComposed e c => (1 <= c)%Z /\ pos_counts e
  | Composed es => (fix go l := match l with [] => True | e :: l => pos_counts e /\ go l end) es
  | RepeatAndSelect e _ _ => pos_counts e
  | _ => True
  end.
Definition pos_history (h : list (event num * Z)) : Prop :=
  Forall (fun en => (1 <= snd en)%Z /\ pos_counts (fst en)) h.

(** No RepeatAndSelect event. *)
Fixpoint no_repeat (e : event num) : Prop :=
  match e with
  | SelfComposed e c => no_repeat e
  | Composed es => (fix go l := match l with [] => True | e :: l => no_repeat e /\ go l end) es
  | RepeatAndSelect _ _ _ => False
  | _ => True
  end.

(** RepeatAndSelect events have a finite mean. *)
Fixpoint finite_means (e : event num) : Prop :=
  match e with
  | SelfComposed e c => finite_means e
  | Composed es => (fix go l := match l with [] => True | e :: l => finite_means e /\ go l end) es
  | RepeatAndSelect e mean _ => finite_means e /\ mean <> PyInf
  | _ => True
  end.

(** Events that release data without protection. *)
Definition not_private (e : event num) : Prop :=
  e = NonPrivate \/ exists s, e = Gaussian s /\ nval s = Fin 0.

(** All numbers in an event are floats. *)
Fixpoint floats (e : event num) : Prop :=
  let fl n := is_float n = true in
  match e with
  | NoOp | NonPrivate | Unsupported => True
  | RandResp p _ => fl p
  | Gaussian s | Laplace s | TreeAggregation s _ => fl s
  | SelfComposed e _ | SampledWithReplacement _ _ e | SampledWithoutReplacement _ _ e => floats e
  | Composed es => (fix go l := match l with [] => True | e :: l => floats e /\ go l end) es
  | PoissonSampled q e => fl q /\ floats e
  | RepeatAndSelect e m s => floats e /\ fl m /\ fl s
  | MixtureOfGaussians s a b => fl s /\ Forall fl a /\ Forall fl b
  end.

(** Sum of vectors, one entry per order. *)
Definition vec_sum (k : nat) (l : list (list xr)) : list xr :=
  fold_right vec_add (repeat (Fin 0) k) l.

(** Orders of a usual RDP accountant: real numbers above 1. *)
Definition orders_above_one (orders : list xr) : Prop :=
  forall a, In a orders -> exists x, a = Fin x /\ 1 < x.

(** The value a numerical routine for the log moment of the sampled Gaussian mechanism
    at fractional orders must have at least to be plausible: moments are at least 1. *)
Definition moments_at_least_one (frac : R -> xr -> xr -> xr) : Prop :=
  forall q sigma a, 0 < q < 1 -> xltb (Fin 0) sigma = true -> 1 < a ->
    xleb (Fin 0) (frac q sigma (Fin a)) = true.

(** The constructors of distributions for continuous mechanisms never raise the
    exception reserved for unsupported events. *)
Definition constructors_clean (gaussian_pld laplace_pld : xr -> xr -> res pld)
    (mixture_pld : xr -> list xr -> list xr -> res pld) : Prop :=
  (forall s q, gaussian_pld s q <> Err UnsupportedEventError) /\
  (forall s q, laplace_pld s q <> Err UnsupportedEventError) /\
  (forall s l p, mixture_pld s l p <> Err UnsupportedEventError).

(** A tree of Gaussian events with positive float noise multipliers. *)
Fixpoint gaussian_tree (e : event num) : Prop :=
  match e with
  | Gaussian (PyFloat s) => 0 < s
  | SelfComposed e c => (1 <= c)%Z /\ gaussian_tree e
  | Composed es => es <> [] /\ (fix go l := match l with [] => True | e :: l => gaussian_tree e /\ go l end) es
  | _ => False
  end.
(** Noise multiplier of an elementary Gaussian event. *)
Definition sigma_of (a : event num) : R :=
  match a with Gaussian (PyFloat s) => s | _ => 0 end.
(** Trees of non-empty compositions whose Gaussian events have positive float noise multipliers; the
    other elementary events are arbitrary. *)
Fixpoint mixed_tree (e : event num) : Prop :=
  match e with
  | Gaussian (PyFloat s) => 0 < s
  | Gaussian _ => False
  | SelfComposed e c => (1 <= c)%Z /\ mixed_tree e
  | Composed es => es <> [] /\ (fix go l := match l with [] => True | e :: l => mixed_tree e /\ go l end) es
  | _ => True
  end.
(** Some elementary event (NoOp included) is not Gaussian. *)
Fixpoint other_leaf (e : event num) : bool :=
  match e with
  | Gaussian _ => false
  | SelfComposed e _ => other_leaf e
  | Composed es => existsb other_leaf es
  | _ => true
  end.

(** What a fresh RDP accountant reports as its RDP after composing one elementary event
    once, and whether that succeeds. *)
Definition unit_charge frac fuel rel orders (a : event num) : list xr :=
  acc_state (fst (acc_compose (rdp_mc frac fuel rel orders) (rdp_new orders) (EventObj a) 1)).
Definition composes frac fuel rel orders (a : event num) : Prop :=
  snd (acc_compose (rdp_mc frac fuel rel orders) (rdp_new orders) (EventObj a) 1) = Ok tt.

(** Calls to the accountant, with whatever outcome, in which every event has positive
    counts and no repeat-and-select part. *)
Definition plain_call (c : acc_call) : Prop :=
  match c with CallAcc (EventObj e) _ => pos_counts e /\ no_repeat e | _ => True end.
