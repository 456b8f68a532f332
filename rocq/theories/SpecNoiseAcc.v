(** Specification vocabulary for the PLD accountant on events of noise mechanisms: the
    computations that the events describe.  Nothing here refers to the code. *)
From Verif Require Import Base XReal TypesEvent TypesRelation SpecDP SpecMake SpecMech SpecConstruct SpecAccPld.

(** A query of some sensitivity [s], on a sample if [q < 1], with noise of the law [F] times
    [s]: the noise is given relative to the sensitivity. *)
Definition scaled_query (F : R -> R) (q : R) (E : exper) : Prop :=
  exists s, 0 < s /\ noisy_query any_value (fun x => F (x / s)) q s E.

(** With noise multiplier 0 there is no noise: any computation.  With sampling probability 0 the
    record has no influence. *)
Definition noisy (law : R -> R -> R) (sigma q : R) (E : exper) : Prop :=
  (q = 0 /\ no_leak E) \/
  (0 < q <= 1 /\ (sigma = 0 /\ valid E \/ 0 < sigma /\ scaled_query (law sigma) q E)).
Definition normal_law (Phi : R -> R) (sigma x : R) : R := Phi (x / sigma).

(** The computations that an elementary event describes; [Phi] is the normal distribution
    function. *)
Definition noise_event (Phi : R -> R) (rel : relation) (a : event num) (E : exper) : Prop :=
  match a with
  | NonPrivate => valid E
  | Gaussian x => exists sigma, nval x = Fin sigma /\ noisy (normal_law Phi) sigma 1 E
  | Laplace x => exists b, nval x = Fin b /\ noisy laplace_law b 1 E
  | PoissonSampled p (Gaussian x) =>
      exists q sigma, nval p = Fin q /\ nval x = Fin sigma /\ noisy (normal_law Phi) sigma q E
  | PoissonSampled p (Laplace x) =>
      exists q b, nval p = Fin q /\ nval x = Fin b /\ noisy laplace_law b q E
  | RandResp p k => exists x, nval p = Fin x /\ 0 <= x <= 1 /\ rr_pair rel x k E
  | _ => False
  end.

(** The runs covered: randomised response once per call, the rest any number of times (sampled
    Gaussian noise at most 10^20 times); a sampling probability must not make the discretization
    grid ambiguous.  Mixtures of Gaussians are not covered. *)
Definition noise_run (disc : R) (r : event num * Z) : Prop :=
  let (a, n) := r in
  match a with
  | RandResp _ _ => n = 1%Z
  | PoissonSampled p (Gaussian _) => (forall q, nval p = Fin q -> 0 < q <= 1 -> grid_clear disc q) /\ (n <= 10 ^ 20)%Z
  | PoissonSampled p (Laplace _) => forall q, nval p = Fin q -> 0 < q <= 1 -> grid_clear disc q
  | MixtureOfGaussians _ _ _ => False
  | _ => True
  end.
