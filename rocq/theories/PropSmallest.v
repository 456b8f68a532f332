(** Properties of the composition theorem for (epsilon, delta)-DP queries (C29, C30). *)
From Verif Require Import Base XReal Exn TypesRelation ModelPmf ModelPld ModelMake ModelSearch ModelSmallest
  SpecDP SpecPmf SpecPld SpecSearch SpecSmallest ProofAdvanced ProofSmallestEx.

(** C29, soundness: if advanced_composition returns e for k queries that are each
    (eps, delta)-DP, then every adaptive interaction of k such queries, each chosen after
    seeing the previous answers, is (e, total)-DP. *)
Theorem C29_sound : forall eps delta pp k total e E,
  privacy_parameters eps delta = Ok pp -> advanced_composition pp k total = Some e ->
  interaction (repeat (private eps delta) (Z.to_nat k)) E -> dp_both E e total.
Proof. exact advanced_sound. Qed.
Print Assumptions C29_sound.

(** C29, optimality: the result is one of the values eps * (k - 2i), and already for k
    independent runs of one (eps, delta)-DP computation no smaller one of these values is a
    valid epsilon; no valid epsilon at all is smaller by more than 2 eps. *)
Theorem C29_optimal : forall eps delta pp k total e,
  privacy_parameters eps delta = Ok pp -> advanced_composition pp k total = Some e ->
  private eps delta (leaky eps delta) /\
  (exists i, (0 <= 2 * i <= k)%Z /\ e = eps * IZR (k - 2 * i)) /\
  (forall i, (0 <= 2 * i <= k)%Z -> dp (repeated (leaky eps delta) (Z.to_nat k)) (eps * IZR (k - 2 * i)) total ->
     e <= eps * IZR (k - 2 * i)) /\
  (forall e', 0 <= e' -> dp (repeated (leaky eps delta) (Z.to_nat k)) e' total -> e <= e' + 2 * eps).
Proof. exact advanced_optimal. Qed.
Print Assumptions C29_optimal.

(** C29: None is returned exactly if the total delta is below 1 - (1 - delta)^k, and then
    no epsilon at all is valid for k runs of the leakiest computation. *)
Theorem C29_none : forall eps delta pp k total,
  privacy_parameters eps delta = Ok pp -> (0 <= k)%Z ->
  (advanced_composition pp k total = None <-> total < 1 - (1 - delta) ^ Z.to_nat k) /\
  (advanced_composition pp k total = None ->
     private eps delta (leaky eps delta) /\ forall e, ~ dp (repeated (leaky eps delta) (Z.to_nat k)) e total).
Proof. exact advanced_none. Qed.
Print Assumptions C29_none.

Example C29_example :
  privacy_parameters (ln 2) 0 = Ok (ln 2, 0) /\
  advanced_composition (ln 2, 0) 2 (1/2) = Some (ln 2 * (2 - 2 * 1)) /\
  advanced_composition (ln 2, 0) 2 (1/10) = Some (ln 2 * (2 - 2 * 0)) /\
  advanced_composition (ln 2, 1/2) 2 (1/10) = None /\
  exists E, interaction (repeat (private (ln 2) 0) (Z.to_nat 2)) E.
Proof. exact advanced_example. Qed.

(** C30: if a per-query epsilon e is returned, every adaptive interaction of n queries that
    are each (e, delta)-DP satisfies the total guarantee, and no larger epsilon in the
    searched range (up to the tolerance 1e-7) does by advanced_composition. *)
Theorem C30_sound : forall fuel te td tp n delta x,
  privacy_parameters te td = Ok tp -> (1 <= n)%Z -> smallest_epsilon fuel tp n delta = Ok (Some x) ->
  exists e, x = Fin e /\ te / IZR n <= e <= te /\ 0 <= delta <= 1 /\
    (forall E, interaction (repeat (private e delta) (Z.to_nat n)) E -> dp_both E te td) /\
    (forall e', e + 1 / 10 ^ 7 < e' <= te ->
       exists t, advanced_composition (e', delta) n td = Some t /\ te < t).
Proof. exact smallest_epsilon_sound. Qed.
Print Assumptions C30_sound.

(** C30: None means that no per-query epsilon at all works with this delta. *)
Theorem C30_none : forall fuel te td tp n delta,
  privacy_parameters te td = Ok tp -> (1 <= n)%Z -> 0 <= delta <= 1 -> smallest_epsilon fuel tp n delta = Ok None ->
  td < 1 - (1 - delta) ^ Z.to_nat n /\
  forall e, 0 <= e -> private e delta (leaky e delta) /\ ~ dp (repeated (leaky e delta) (Z.to_nat n)) te td.
Proof. exact smallest_epsilon_none. Qed.
Print Assumptions C30_none.

(** C30: the search always returns. *)
Theorem C30_returns : forall te td tp n delta,
  privacy_parameters te td = Ok tp -> (1 <= n)%Z -> 0 <= delta <= 1 ->
  exists N, forall fuel, (N < fuel)%nat -> exists r, smallest_epsilon fuel tp n delta = Ok r.
Proof. exact smallest_epsilon_returns. Qed.
Print Assumptions C30_returns.

Example C30_example :
  privacy_parameters 1 (1/10) = Ok (1, 1/10) /\
  (exists fuel x, smallest_epsilon fuel (1, 1/10) 4 (1/100) = Ok (Some x)) /\
  (forall fuel, smallest_epsilon fuel (1, 1/10) 4 (1/10) = Ok None).
Proof. exact smallest_epsilon_example. Qed.
