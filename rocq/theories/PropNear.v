(** Properties of the accuracy of composed privacy loss distributions. *)
From Verif Require Import Base XReal Exn PyDict ModelCommon ModelPmf ModelPld ModelMake SpecDP SpecPmf SpecPld SpecMake SpecNear
  ProofNear ProofNearTwo ProofNearEps ProofNearMake.

(** C80: composing optimistic distributions, with any truncations, gives a lower bound: no
    interaction of computations that are at least as bad as them is better than reported. *)
Theorem C80_optimistic : forall D0 l D E eps d,
  subproper_pld false D0 -> Forall (fun x => subproper_pld false (fst x) /\ 0 <= snd x) l ->
  compose_all D0 l = Ok D ->
  interaction (pld_near 0 0 D0 :: map (fun x => pld_near 0 0 (fst x)) l) E ->
  dp_both E eps d -> pld_delta D (Fin eps) <= d.
Proof. exact near_optimistic. Qed.
Print Assumptions C80_optimistic.

(** C80: composing distributions that are close to the computations from above: the shifts and
    the slacks add up, and so do the truncations if the distributions are pessimistic. *)
Theorem C80_accounting : forall pess c0 r0 D0 l D E eps d,
  subproper_pld pess D0 -> 0 <= c0 -> 0 <= r0 -> Forall (step_ok pess) l ->
  compose_all D0 (map (fun s => (step_pld s, step_tail s)) l) = Ok D ->
  interaction (pld_near c0 r0 D0 :: map step_class l) E ->
  dp_both E (eps - (c0 + rsum step_shift l)) d ->
  pld_delta D (Fin eps) <= d + r0 + rsum (fun s => step_slack s + if pess then step_tail s else 0) l.
Proof. exact near_accounting. Qed.
Print Assumptions C80_accounting.

(** C80: the same for the accounting of a user who starts from identity(). *)
Theorem C80_from_identity : forall disc I l D E eps d, 0 < disc -> identity disc = Ok I -> Forall (step_ok true) l ->
  compose_all I (map (fun s => (step_pld s, step_tail s)) l) = Ok D -> interaction (map step_class l) E ->
  dp_both E (eps - rsum step_shift l) d ->
  pld_delta D (Fin eps) <= d + rsum (fun s => step_slack s + step_tail s) l.
Proof. exact near_identity. Qed.
Print Assumptions C80_from_identity.

(** C80: hence get_epsilon_for_delta exceeds every epsilon that the interaction satisfies, with
    some delta left for the slacks, by at most the sum of the shifts. *)
Theorem C80_epsilon : forall pess c0 r0 D0 l D E eps d delta,
  subproper_pld pess D0 -> 0 <= c0 -> 0 <= r0 -> Forall (step_ok pess) l ->
  compose_all D0 (map (fun s => (step_pld s, step_tail s)) l) = Ok D ->
  interaction (pld_near c0 r0 D0 :: map step_class l) E ->
  0 <= eps -> dp_both E eps d ->
  d + r0 + rsum (fun s => step_slack s + if pess then step_tail s else 0) l < delta ->
  exists e, pld_epsilon D delta = Ok (Fin e) /\ 0 <= e <= eps + (c0 + rsum step_shift l).
Proof. exact near_epsilon. Qed.
Print Assumptions C80_epsilon.

(** C80: the same for self_compose; an optimistic distribution must not be truncated (see
    C18_optimistic_refuted). *)
Theorem C80_self_compose : forall fast_len pess D n tail r c s E eps d,
  (forall k, (k <= fast_len k)%nat) -> subproper_pld pess D -> 0 <= c -> 0 <= s ->
  0 <= tail -> (pess = false -> tail = 0) ->
  pld_self_compose fast_len D n tail = Ok r ->
  interaction (repeat (pld_near c s D) (Z.to_nat n)) E ->
  dp_both E (eps - IZR n * c) d ->
  pld_delta r (Fin eps) <= d + IZR n * s + 2 * tail.
Proof. exact near_self. Qed.
Print Assumptions C80_self_compose.

(** C80: what from_two_probability_mass_functions returns is of this kind. *)
Theorem C80_two_pmfs : forall (O : Type) (eqb : O -> O -> bool) lower upper pess disc bound sym D,
  (forall a b, eqb a b = true <-> a = b) -> 0 < disc -> distribution lower -> distribution upper ->
  (sym = true -> forall eps, hockey_stick (swap (two_exper eqb upper lower)) eps = hockey_stick (two_exper eqb upper lower) eps) ->
  from_two_pmfs eqb lower upper pess disc bound sym = Ok D ->
  subproper_pld pess D /\
  pld_near (if pess then disc else 0)
    (if pess then match bound with Some b => INR (Nat.max (length lower) (length upper)) * exp b | None => 0 end else 0)
    D (two_exper eqb upper lower).
Proof. exact (fun O eqb lower upper pess disc bound sym D H => two_near eqb H lower upper pess disc bound sym D). Qed.
Print Assumptions C80_two_pmfs.

(** C80: [n] runs of a pair of distributions: the reported delta is not below the truth, and at
    most the truth [n] intervals to the left, plus the truncated masses. *)
Theorem C80_runs : forall (O : Type) (eqb : O -> O -> bool) fast_len lower upper disc bound sym D n tail r E eps,
  (forall a b, eqb a b = true <-> a = b) -> (forall k, (k <= fast_len k)%nat) ->
  0 < disc -> distribution lower -> distribution upper ->
  (sym = true -> forall eps, hockey_stick (swap (two_exper eqb upper lower)) eps = hockey_stick (two_exper eqb upper lower) eps) ->
  from_two_pmfs eqb lower upper true disc bound sym = Ok D -> 0 <= tail ->
  pld_self_compose fast_len D n tail = Ok r ->
  interaction (repeat (eq (two_exper eqb upper lower)) (Z.to_nat n)) E ->
  dp_both E eps (pld_delta r (Fin eps)) /\
  forall d, dp_both E (eps - IZR n * disc) d ->
    pld_delta r (Fin eps) <= d +
      IZR n * match bound with Some b => INR (Nat.max (length lower) (length upper)) * exp b | None => 0 end + 2 * tail.
Proof.
  exact (fun O eqb fast_len lower upper disc bound sym D n tail r E eps H =>
    two_self eqb H fast_len lower upper disc bound sym D n tail r E eps).
Qed.
Print Assumptions C80_runs.
(** C80: and so is the reported epsilon: it is finite, holds for the [n] runs, and is at most [n]
    intervals above every epsilon that they satisfy with a delta that leaves room. *)
Theorem C80_runs_epsilon : forall (O : Type) (eqb : O -> O -> bool) fast_len lower upper disc bound sym D n tail r E eps d delta,
  (forall a b, eqb a b = true <-> a = b) -> (forall k, (k <= fast_len k)%nat) ->
  0 < disc -> distribution lower -> distribution upper ->
  (sym = true -> forall eps, hockey_stick (swap (two_exper eqb upper lower)) eps = hockey_stick (two_exper eqb upper lower) eps) ->
  from_two_pmfs eqb lower upper true disc bound sym = Ok D -> 0 <= tail ->
  pld_self_compose fast_len D n tail = Ok r ->
  interaction (repeat (eq (two_exper eqb upper lower)) (Z.to_nat n)) E ->
  0 <= eps -> dp_both E eps d ->
  d + IZR n * match bound with Some b => INR (Nat.max (length lower) (length upper)) * exp b | None => 0 end + 2 * tail < delta ->
  exists e, pld_epsilon r delta = Ok (Fin e) /\ 0 <= e <= eps + IZR n * disc /\ dp_both E e delta.
Proof.
  exact (fun O eqb fast_len lower upper disc bound sym D n tail r E eps d delta H =>
    two_self_eps eqb H fast_len lower upper disc bound sym D n tail r E eps d delta).
Qed.
Print Assumptions C80_runs_epsilon.
Theorem C80_runs_optimistic : forall (O : Type) (eqb : O -> O -> bool) fast_len lower upper disc bound sym D n r E eps d,
  (forall a b, eqb a b = true <-> a = b) -> (forall k, (k <= fast_len k)%nat) ->
  0 < disc -> distribution lower -> distribution upper ->
  (sym = true -> forall eps, hockey_stick (swap (two_exper eqb upper lower)) eps = hockey_stick (two_exper eqb upper lower) eps) ->
  from_two_pmfs eqb lower upper false disc bound sym = Ok D ->
  pld_self_compose fast_len D n 0 = Ok r ->
  interaction (repeat (eq (two_exper eqb upper lower)) (Z.to_nat n)) E ->
  dp_both E eps d -> pld_delta r (Fin eps) <= d.
Proof.
  exact (fun O eqb fast_len lower upper disc bound sym D n r E eps d H =>
    two_self_optimistic eqb H fast_len lower upper disc bound sym D n r E eps d).
Qed.
Print Assumptions C80_runs_optimistic.

(** One bit, reported correctly with probability 2/3, any number of times. *)
Example C80_example : forall pess n, (1 <= n)%Z ->
  distribution bit_upper /\ distribution bit_lower /\
  (forall eps, hockey_stick (swap (two_exper Z.eqb bit_upper bit_lower)) eps =
               hockey_stick (two_exper Z.eqb bit_upper bit_lower) eps) /\
  exists D r E,
  from_two_pmfs Z.eqb bit_lower bit_upper pess 1 None true = Ok D /\
  pld_self_compose (fun k => k) D n 0 = Ok r /\
  interaction (repeat (eq (two_exper Z.eqb bit_upper bit_lower)) (Z.to_nat n)) E /\
  subproper_pld pess D /\ pld_near (if pess then 1 else 0) 0 D (two_exper Z.eqb bit_upper bit_lower) /\
  exists r2, compose_all D [(D, 0)] = Ok r2.
Proof. exact (fun pess n H => conj (proj1 bit_distributions) (conj (proj2 bit_distributions) (conj bit_swap (bit_run pess n H)))). Qed.

(** and the epsilon of one such run is ln 2, with every delta *)
Example C80_epsilon_example : dp_both (two_exper Z.eqb bit_upper bit_lower) (ln 2) 0.
Proof. exact bit_dp. Qed.

(** C80: so is what from_randomized_response returns, for every pair of neighbouring inputs, and
    [n] runs of it with adaptively chosen inputs. *)
Theorem C80_randomized_response : forall p k pess disc rel D E, 0 < disc ->
  from_randomized_response p k pess disc rel = Ok D -> rr_pair rel p k E ->
  subproper_pld pess D /\ pld_near (if pess then disc else 0) 0 D E.
Proof. exact rr_near. Qed.
Print Assumptions C80_randomized_response.

Theorem C80_randomized_response_runs : forall fast_len p k pess disc rel D n tail r E eps d,
  (forall k, (k <= fast_len k)%nat) -> 0 < disc ->
  from_randomized_response p k pess disc rel = Ok D -> 0 <= tail -> (pess = false -> tail = 0) ->
  pld_self_compose fast_len D n tail = Ok r ->
  interaction (repeat (rr_pair rel p k) (Z.to_nat n)) E ->
  dp_both E (eps - IZR n * if pess then disc else 0) d ->
  pld_delta r (Fin eps) <= d + 2 * tail.
Proof. exact rr_self. Qed.
Print Assumptions C80_randomized_response_runs.

(** C80: what from_privacy_parameters returns is close to a mechanism that has this guarantee,
    without any shift when epsilon is on the grid; so no sound accountant reports less for [n] runs,
    but for the shift and the truncated mass. *)
Theorem C80_parameters : forall eps delta pp disc D, 0 < disc ->
  privacy_parameters eps delta = Ok pp -> from_privacy_parameters pp disc = Ok D ->
  subproper_pld true D /\ dp_both (worst_mechanism eps delta) eps delta /\
  pld_near disc 0 D (worst_mechanism eps delta) /\
  ((exists n, eps = IZR n * disc) -> pld_near 0 0 D (worst_mechanism eps delta)).
Proof. exact params_near. Qed.
Print Assumptions C80_parameters.

Theorem C80_parameters_runs : forall fast_len eps delta pp disc D n tail r E c e d,
  (forall k, (k <= fast_len k)%nat) -> 0 < disc ->
  privacy_parameters eps delta = Ok pp -> from_privacy_parameters pp disc = Ok D -> 0 <= tail ->
  pld_self_compose fast_len D n tail = Ok r ->
  interaction (repeat (eq (worst_mechanism eps delta)) (Z.to_nat n)) E ->
  c = disc \/ (c = 0 /\ exists m, eps = IZR m * disc) ->
  dp_both E (e - IZR n * c) d ->
  pld_delta r (Fin e) <= d + 2 * tail.
Proof. exact params_self. Qed.
Print Assumptions C80_parameters_runs.

Example C80_parameters_example : exists D r E, privacy_parameters 1 (1/10) = Ok (1, 1/10) /\
  from_privacy_parameters (1, 1/10) (1/2) = Ok D /\ pld_self_compose (fun k => k) D 2 0 = Ok r /\
  interaction (repeat (eq (worst_mechanism 1 (1/10))) 2) E /\ exists m, 1 = IZR m * (1/2).
Proof. exact params_example. Qed.
