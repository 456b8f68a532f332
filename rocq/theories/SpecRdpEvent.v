(** Specification vocabulary for the RDP accountant on events: the computations that the
    events describe.  Nothing here refers to the code (the events themselves, and the trees
    of Gaussian events, are the vocabulary of dp_event.py). *)
From Coq Require Import Permutation.
From Verif Require Import Base XReal TypesEvent TypesRelation SpecEvent SpecDP SpecMake SpecMech SpecRenyi SpecRdp SpecNoiseAcc SpecAccPld SpecAccountant SpecSelect SpecWor ModelRdp.

(** A query with Gaussian noise of [sigma] times its sensitivity. *)
Definition gaussian_query (Phi : R -> R) (sigma : R) (E : exper) : Prop :=
  scaled_query (normal_law Phi sigma) 1 E.

(** Several computations, one of each class, run side by side on the same input. *)
Inductive joint : list (exper -> Prop) -> exper -> Prop :=
| joint_nil : joint [] silent
| joint_snoc : forall (Cs : list (exper -> Prop)) E (C : exper -> Prop) E',
    joint Cs E -> C E' -> joint (Cs ++ [C]) (seq_exper E (fun _ => E')).

(** What is computed on the sample: one Gaussian event, or a tree of them (the queries of one
    sample are all determined by it). *)
Definition sample_of (Phi : R -> R) (e : event num) (E : exper) : Prop :=
  (exists x sigma, e = Gaussian x /\ nval x = Fin sigma /\ noisy (normal_law Phi) sigma 1 E) \/
  (gaussian_tree e /\ joint (map (fun a => gaussian_query Phi (sigma_of a)) (atoms e)) E).

(** Tree aggregation: for each of the trees, over [n] steps, the sums of the complete nodes are
    released with Gaussian noise, in any order and adaptively.  The record takes part in step
    [t] of tree [k] only: the other nodes do not depend on it. *)
Definition tree_node : Type := nat * (nat * nat).
Fixpoint forest (k : nat) (counts : list Z) : list tree_node :=
  match counts with
  | [] => []
  | z :: counts => map (pair k) (tree_nodes (Z.to_nat z)) ++ forest (S k) counts
  end.
Definition tree_release (Phi : R -> R) (sigma : R) (st : steps) (E : exper) : Prop :=
  exists k t nodes, Permutation nodes (forest 0 (all_counts st)) /\
    interaction (map (fun v => if ((fst v =? k)%nat && covers (snd v) t)%bool
                               then gaussian_query Phi sigma else no_leak) nodes) E.

(** The computations that an elementary event describes; [Phi] is the normal distribution
    function.  The events the accountant refuses are not covered. *)
Definition elementary_event (Phi : R -> R) (rel : relation) (a : event num) (E : exper) : Prop :=
  match a with
  | NonPrivate => valid E
  | Gaussian x =>
      (exists sigma, nval x = Fin sigma /\ noisy (normal_law Phi) sigma 1 E) \/
      (nval x = PInf /\ no_leak E)
  | Laplace x =>
      (exists b, nval x = Fin b /\ 0 < b /\ scaled_query (laplace_law b) 1 E) \/
      (nval x = PInf /\ no_leak E)
  | PoissonSampled p e =>
      exists q E0, nval p = Fin q /\ sample_of Phi e E0 /\ E = poisson_mix q E0
  | SampledWithoutReplacement source size e =>
      exists n m, source = Z.of_nat n /\ size = Z.of_nat m /\
        sampled_without_replacement (sample_of Phi e) n m E
  | RandResp p k => exists x, nval p = Fin x /\ rr_pair rel x k E
  | TreeAggregation x st =>
      exists sigma, nval x = Fin sigma /\
        (sigma = 0 /\ valid E \/ 0 < sigma /\ tree_release Phi sigma st E)
  | _ => False
  end.

(** With repeated selection, nested at most [n] deep: the selected computation is any adaptive
    interaction made of the computations that the inner event describes. *)
Fixpoint rdp_level (n : nat) (Phi : R -> R) (rel : relation) (a : event num) (E : exper) : Prop :=
  match a with
  | RepeatAndSelect e mean shape =>
      match n with
      | O => False
      | S n => exists E0 m pk, nval mean = Fin m /\ interaction (map (rdp_level n Phi rel) (atoms e)) E0 /\
                 runs_law (nval shape) m pk /\ selects pk E0 E
      end
  | _ => elementary_event Phi rel a E
  end.
Definition rdp_event (Phi : R -> R) (rel : relation) (a : event num) (E : exper) : Prop :=
  exists n, rdp_level n Phi rel a E.

(** At a fractional order, the numerical routine returns a bound on the log moment of the
    sampled Gaussian mechanism (of several queries whose joint noise is [s]). *)
Definition frac_sound (Phi : R -> R) (frac : R -> xr -> xr -> xr) (q a : R) : Prop :=
  forall sigmas s E0, Forall (fun t => 0 < t) sigmas -> 0 < s ->
    / (s * s) = rsum (fun t => / (t * t)) sigmas -> joint (map (gaussian_query Phi) sigmas) E0 ->
    match frac q (Fin s) (Fin a) with
    | Fin x => renyi_moment (poisson_mix q E0) a <= exp x
    | PInf => True
    | _ => False
    end.

(** Orders at which the accountant's formula for an event has a value: it is 0/0 for sampled
    Gaussian noise at order 1, and for tree aggregation without any step at order infinity;
    the one for repeated selection, unless Poisson distributed, may be at order 1. *)
Definition defined_at (a : xr) (e : event num) : Prop :=
  match e with
  | PoissonSampled _ _ => a <> Fin 1
  | SampledWithoutReplacement _ _ _ => a <> Fin 1
  | RepeatAndSelect _ _ shape => nval shape <> PInf -> a <> Fin 1
  | TreeAggregation _ st => a = PInf -> exists z, In z (all_counts st) /\ (0 < z)%Z
  | _ => True
  end.
(** The fractional orders that sampled Gaussian noise is used with. *)
Definition frac_sound_for (Phi : R -> R) (frac : R -> xr -> xr -> xr) (a : xr) (e : event num) : Prop :=
  match e, a with
  | PoissonSampled p _, Fin x => forall q, nval p = Fin q -> 0 < q < 1 -> is_integer x = false -> frac_sound Phi frac q x
  | _, _ => True
  end.

(** The elementary events of an event, including those that are selected from. *)
Fixpoint parts (e : event num) : list (event num) :=
  match e with
  | NoOp => []
  | SelfComposed e _ => parts e
  | Composed es => flat_map parts es
  | RepeatAndSelect e0 _ _ => e :: parts e0
  | _ => [e]
  end.
