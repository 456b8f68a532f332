(** Specification vocabulary for upper bounds that hold up to an error: what the error is, and
    which error a sequence of runs has. *)
From Verif Require Import Base XReal Exn TypesEvent TypesRelation SpecDP SpecEvent SpecMake SpecMech SpecMixture ModelPmf ModelPld SpecPld SpecAccPld SpecNoiseAcc.

(** [D] is an upper bound for the computation [E] up to [err]: at every eps, in both directions, no
    event exceeds the privacy profile by more than [err]. *)
Definition pld_within (err : R) (D : pld) (E : exper) : Prop :=
  valid E /\
  profile_bounds (fun eps => pmf_delta (pmf_remove D) (Fin eps) + err) E /\
  profile_bounds (fun eps => pmf_delta (pmf_add D) (Fin eps) + err) (swap E).

(** As [bounds_class] and [run_sound] of SpecAccPld, up to an error [err a] in each run of [a]. *)
Definition within_class (err : R) (tail : R) (n : Z) (D : res pld) (C : exper -> Prop) : Prop :=
  forall D', D = Ok D' -> sound_pld D' /\ (forall E, C E -> pld_within err D' E) /\
    2 * tail <= (1 - infinity_mass (pmf_remove D')) ^ Z.to_nat n /\
    2 * tail <= (1 - infinity_mass (pmf_add D')) ^ Z.to_nat n.
Definition run_within (gaussian_pld laplace_pld : xr -> xr -> res pld)
    (mixture_pld : xr -> list xr -> list xr -> res pld) (rel : relation) (tail : R)
    (mech : event num -> exper -> Prop) (err : event num -> R) (r : event num * Z) : Prop :=
  let (a, n) := r in
  match a with
  | Gaussian sigma => forall D, gaussian_pld (xdiv (nval sigma) (Fin (sqrt (IZR n)))) (Fin 1) = Ok D ->
      sound_pld D /\ forall E, interaction (repeat (mech a) (Z.to_nat n)) E -> pld_bounds D E
  | Laplace b => within_class (err a) tail n (laplace_pld (nval b) (Fin 1)) (mech a)
  | MixtureOfGaussians sd sens probs =>
      (match sens with [x] => nval x = Fin 0 -> forall E, mech a E -> no_leak E | _ => True end) /\
      within_class (err a) tail n (mixture_pld (nval sd) (map nval sens) (map nval probs)) (mech a)
  | PoissonSampled q (Gaussian x) =>
      (nval q = Fin 0 -> forall E, mech a E -> no_leak E) /\
      within_class (err a) tail n (gaussian_pld (nval x) (nval q)) (mech a)
  | PoissonSampled q (Laplace x) =>
      (nval q = Fin 0 -> forall E, mech a E -> no_leak E) /\
      within_class (err a) tail n (laplace_pld (nval x) (nval q)) (mech a)
  | RandResp p k => n = 1%Z /\ forall E, mech a E -> exists x, nval p = Fin x /\ rr_pair rel x k E
  | _ => True
  end.

(** The error of a sequence of runs: every single run adds its own. *)
Definition total_error (err : event num -> R) (l : list (event num * Z)) : R :=
  rsum (fun r => INR (Z.to_nat (snd r)) * err (fst r)) l.

(** The error of the additive noise mechanisms: an epsilon within a relative 1e-9 of the limit
    log(1-q) of the privacy loss is treated as this limit. *)
Definition near_error (q : R) : R := exp (2 / 10 ^ 9 * Rabs (ln (1 - q))) - 1.

(** The real numbers in a list, if all are finite. *)
Fixpoint finite_values (l : list xr) : option (list R) :=
  match l with
  | [] => Some []
  | Fin x :: l => match finite_values l with Some m => Some (x :: m) | None => None end
  | _ => None
  end.
Definition largest (l : list R) : R := fold_right Rmax 0 l.

(** The error of one run of an event: that of the numerical inversion for mixtures of Gaussians,
    that near the limit of the privacy loss for sampled mechanisms, and none for the others. *)
Definition event_error (a : event num) : R :=
  match a with
  | PoissonSampled p _ => match nval p with Fin q => if Rltb q 1 then near_error q else 0 | _ => 0 end
  | MixtureOfGaussians sd sens probs =>
      match nval sd, finite_values (map nval sens), finite_values (map nval probs) with
      | Fin sigma, Some ss, Some ps => mixture_error sigma (largest ss) (positive_part (combine ss ps))
      | _, _, _ => 0
      end
  | _ => 0
  end.

(** The computations that an elementary event describes, with mixtures of Gaussians: a query
    whose shift is random.  If all the sensitivities are 0 the record has no influence; without
    noise it may be any computation. *)
Definition noise_or_mixture (Phi : R -> R) (rel : relation) (a : event num) (E : exper) : Prop :=
  match a with
  | MixtureOfGaussians sd sens probs =>
      exists sigma ss ps, nval sd = Fin sigma /\ map nval sens = map Fin ss /\ map nval probs = map Fin ps /\
        ((forall s, In s ss -> s = 0) /\ no_leak E \/
         (exists s, In s ss /\ s <> 0) /\
           (sigma = 0 /\ valid E \/ 0 < sigma /\ valid E /\ mixture_query (normal_law Phi sigma) (combine ss ps) E))
  | _ => noise_event Phi rel a E
  end.

(** The runs covered: randomised response once per call; sampled Gaussian noise and mixtures at
    most 10^20 times; the probabilities of a mixture add up to 1, and it has one positive
    sensitivity only, or one with a total probability of at least 2e-8. *)
Definition covered_run (r : event num * Z) : Prop :=
  let (a, n) := r in
  match a with
  | RandResp _ _ => n = 1%Z
  | PoissonSampled _ (Gaussian _) => (n <= 10 ^ 20)%Z
  | MixtureOfGaussians _ sens probs => (n <= 10 ^ 20)%Z /\
      forall ss ps, map nval sens = map Fin ss -> map nval probs = map Fin ps ->
        rsum (fun p => p) ps = 1 /\ (one_sensitivity (combine ss ps) \/ 2 / 10 ^ 8 <= positive_part (combine ss ps))
  | _ => True
  end.
