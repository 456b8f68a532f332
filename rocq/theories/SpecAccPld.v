(** Specification vocabulary for the PLD accountant: which computations a sequence of
    compose calls stands for, and what its external constructors must provide. *)
From Verif Require Import Base XReal Exn TypesEvent TypesRelation SpecDP SpecEvent SpecMake ModelPmf ModelPld SpecPld.

(** The elementary events of an event composed [n] times, each with the number of times it
    is run, in the order in which they are accounted: in a composition of several events that
    is repeated, all the runs of the first event come first. *)
Fixpoint runs_of (e : event num) (n : Z) : list (event num * Z) :=
  match e with
  | NoOp => []
  | SelfComposed e c => runs_of e (c * n)
  | Composed es => flat_map (fun e => runs_of e n) es
  | _ => [(e, n)]
  end.
Definition history_runs (h : list (event num * Z)) : list (event num * Z) :=
  flat_map (fun en => runs_of (fst en) (snd en)) h.

(** The classes of computations to run, one after the other, when the elementary event [a]
    stands for the class [mech a]. *)
Definition run_classes (mech : event num -> exper -> Prop) (l : list (event num * Z)) : list (exper -> Prop) :=
  flat_map (fun r => repeat (mech (fst r)) (Z.to_nat (snd r))) l.

(** A computation whose outcome does not depend on the input. *)
Definition no_leak (E : exper) : Prop := valid E /\ forall a, In a (outs E) -> prP E a = prQ E a.

(** [D], if it is returned, is an upper bound for every computation of the class [C], and it
    stays below total infinity mass when [n] copies are composed with truncation [tail]. *)
Definition bounds_class (tail : R) (n : Z) (D : res pld) (C : exper -> Prop) : Prop :=
  forall D', D = Ok D' -> sound_pld D' /\ (forall E, C E -> pld_bounds D' E) /\
    2 * tail <= (1 - infinity_mass (pmf_remove D')) ^ Z.to_nat n /\
    2 * tail <= (1 - infinity_mass (pmf_add D')) ^ Z.to_nat n.

(** What the external constructors must satisfy for the run of [n] computations of class
    [mech a].  Randomised response stands for itself and must not be repeated. *)
Definition run_sound (gaussian_pld laplace_pld : xr -> xr -> res pld)
    (mixture_pld : xr -> list xr -> list xr -> res pld) (rel : relation) (tail : R)
    (mech : event num -> exper -> Prop) (r : event num * Z) : Prop :=
  let (a, n) := r in
  match a with
  | Gaussian sigma => forall D, gaussian_pld (xdiv (nval sigma) (Fin (sqrt (IZR n)))) (Fin 1) = Ok D ->
      sound_pld D /\ forall E, interaction (repeat (mech a) (Z.to_nat n)) E -> pld_bounds D E
  | Laplace b => bounds_class tail n (laplace_pld (nval b) (Fin 1)) (mech a)
  | MixtureOfGaussians sd sens probs =>
      (match sens with [x] => nval x = Fin 0 -> forall E, mech a E -> no_leak E | _ => True end) /\
      bounds_class tail n (mixture_pld (nval sd) (map nval sens) (map nval probs)) (mech a)
  | PoissonSampled q (Gaussian x) =>
      (nval q = Fin 0 -> forall E, mech a E -> no_leak E) /\
      bounds_class tail n (gaussian_pld (nval x) (nval q)) (mech a)
  | PoissonSampled q (Laplace x) =>
      (nval q = Fin 0 -> forall E, mech a E -> no_leak E) /\
      bounds_class tail n (laplace_pld (nval x) (nval q)) (mech a)
  | RandResp p k => n = 1%Z /\ forall E, mech a E -> exists x, nval p = Fin x /\ rr_pair rel x k E
  | _ => True
  end.
