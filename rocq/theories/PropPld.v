(** Properties C12 to C20: queries and composition of privacy loss distributions. *)
From Coq Require Import Sorting.Sorted.
From Verif Require Import Base XReal Exn PyDict ModelCommon ModelPmf ModelPld SpecDP SpecPmf SpecPld
  ProofPld ProofSelf ProofComposed ProofSelfDP ProofPldApi.

(** C12: delta is the privacy curve of the distribution, the worse of the two
    directions.  [k1] and [k2] list the losses of positive probability. *)
Theorem C12_delta_is_curve : forall D e k1 k2, wf_pld D ->
  covers k1 (pmf_remove D) -> covers k2 (pmf_add D) ->
  pld_delta D (Fin e) = Rmax (curve_at (pmf_remove D) k1 e) (curve_at (pmf_add D) k2 e).
Proof. exact (fun D e k1 k2 W => pld_delta_curve D e k1 k2 (proj1 W) (proj1 (proj2 W)) (proj2 (proj2 W))). Qed.
Print Assumptions C12_delta_is_curve.

Theorem C12_delta_monotone : forall D e1 e2, wf_pld D -> e1 <= e2 ->
  pld_delta D (Fin e2) <= pld_delta D (Fin e1).
Proof. exact pld_monotone. Qed.
Print Assumptions C12_delta_monotone.

(** C12: convex as a function of e^eps. *)
Theorem C12_delta_convex : forall D t e1 e2 e, wf_pld D -> 0 <= t <= 1 ->
  exp e = t * exp e1 + (1 - t) * exp e2 ->
  pld_delta D (Fin e) <= t * pld_delta D (Fin e1) + (1 - t) * pld_delta D (Fin e2).
Proof. exact pld_delta_convex. Qed.
Print Assumptions C12_delta_convex.

Theorem C12_delta_range : forall D e k1 k2, wf_pld D ->
  covers k1 (pmf_remove D) -> covers k2 (pmf_add D) ->
  Rmax (infinity_mass (pmf_remove D)) (infinity_mass (pmf_add D)) <= pld_delta D (Fin e) <=
  Rmax (infinity_mass (pmf_remove D) + rsum (mass (pmf_remove D)) k1)
       (infinity_mass (pmf_add D) + rsum (mass (pmf_add D)) k2).
Proof. exact pld_delta_range. Qed.
Print Assumptions C12_delta_range.

Theorem C12_delta_above_all_losses : forall D e, wf_pld D ->
  (forall k, mass (pmf_remove D) k <> 0 -> IZR k * discretization (pmf_remove D) <= e) ->
  (forall k, mass (pmf_add D) k <> 0 -> IZR k * discretization (pmf_add D) <= e) ->
  pld_delta D (Fin e) = Rmax (infinity_mass (pmf_remove D)) (infinity_mass (pmf_add D)).
Proof. exact pld_delta_above. Qed.
Print Assumptions C12_delta_above_all_losses.

(** An asymmetric PLD with a sparse and a dense pmf and an infinity mass. *)
Example C12_example : wf_pld skew_pld /\ symmetric skew_pld = false /\
  covers [1%Z; (-1)%Z] (pmf_remove skew_pld) /\ infinity_mass (pmf_add skew_pld) = 1/4.
Proof. exact (conj (sound_wf _ skew_sound) (conj eq_refl (conj (half_covers true) eq_refl))). Qed.

(** C13: for sorted epsilons the vectorised query answers position by position
    like the scalar query; unsorted epsilons are rejected. *)
Theorem C13_vectorised_delta_partial : forall D (eps : list R), wf_pld D ->
  (Sorted Rle eps ->
     pld_delta_vectorized D (map Fin eps) = Ok (map (fun e => pld_delta D (Fin e)) eps)) /\
  (~ Sorted Rle eps -> pld_delta_vectorized D (map Fin eps) = Err ValueError).
Proof. exact vectorised_delta. Qed.
Print Assumptions C13_vectorised_delta_partial.

(** C13, also for infinite epsilons: whenever the call succeeds. *)
Theorem C13_vectorised_delta_infinite : forall D (eps : list xr) ds, wf_pld D ->
  (forall e, In e eps -> e <> NaN) ->
  pld_delta_vectorized D eps = Ok ds -> ds = map (pld_delta D) eps.
Proof. exact vectorised_delta_infinite. Qed.
Print Assumptions C13_vectorised_delta_infinite.

Example C13_example :
  pld_delta_vectorized skew_pld (map Fin [-1; 0; 0; 1]) =
  Ok [pld_delta skew_pld (Fin (-1)); pld_delta skew_pld (Fin 0);
      pld_delta skew_pld (Fin 0); pld_delta skew_pld (Fin 1)].
Proof. exact vectorised_example. Qed.

(** C13, finding: a sorted list with a repeated infinity is rejected, because
    the check for sortedness computes inf - inf. *)
Theorem C13_repeated_infinity_refuted : forall D,
  pld_delta_vectorized D [PInf; PInf] = Err ValueError.
Proof. exact (fun D => eq_refl). Qed.
Print Assumptions C13_repeated_infinity_refuted.

(** C14: epsilon never raises; it is infinite exactly when an infinity mass
    exceeds delta; otherwise it is a non-negative epsilon whose delta is at most
    the given one, and the smallest such (when the probabilities are positive,
    or delta exceeds the infinity masses). *)
Theorem C14_epsilon_for_delta : forall D delta, wf_pld D ->
  (pld_epsilon D delta = Ok PInf /\
     (delta < infinity_mass (pmf_remove D) \/ delta < infinity_mass (pmf_add D))) \/
  (infinity_mass (pmf_remove D) <= delta /\ infinity_mass (pmf_add D) <= delta /\
   exists e, pld_epsilon D delta = Ok (Fin e) /\ 0 <= e /\ pld_delta D (Fin e) <= delta /\
   ((infinity_mass (pmf_remove D) < delta \/ forall kv, In kv (losses_probs (pmf_remove D)) -> 0 < snd kv) ->
    (infinity_mass (pmf_add D) < delta \/ forall kv, In kv (losses_probs (pmf_add D)) -> 0 < snd kv) ->
    forall e', 0 <= e' < e -> delta < pld_delta D (Fin e'))).
Proof. exact (fun D delta W => pld_epsilon_spec D delta (proj1 W) (proj1 (proj2 W)) (proj2 (proj2 W))). Qed.
Print Assumptions C14_epsilon_for_delta.

Example C14_example : wf_pld coin_pld /\
  forall kv, In kv (losses_probs (pmf_remove coin_pld)) -> 0 < snd kv.
Proof. exact (conj (sound_wf _ coin_sound) coin_positive). Qed.

(** C14, finding: with a zero probability at the largest loss and delta equal to
    the infinity mass, the answer is not the smallest. *)
Theorem C14_smallest_refuted : exists D e e',
  wf_pld D /\ pld_epsilon D 0 = Ok (Fin e) /\ 0 <= e' < e /\ pld_delta D (Fin e') <= 0.
Proof. exact epsilon_not_smallest. Qed.
Print Assumptions C14_smallest_refuted.

(** C15: [r] truncates tails, [r0] does not. *)
Theorem C15_truncation : forall D D' tail r0 r e,
  wf_pld D -> wf_pld D' -> inf_le_1 D -> inf_le_1 D' -> 0 <= tail ->
  pld_compose D D' 0 = Ok r0 -> pld_compose D D' tail = Ok r ->
  (pessimistic_estimate (pmf_remove D) = true -> pessimistic_estimate (pmf_add D) = true ->
     pld_delta r0 (Fin e) <= pld_delta r (Fin e) <= pld_delta r0 (Fin e) + tail /\
     pld_delta r MInf = pld_delta r0 MInf) /\
  (pessimistic_estimate (pmf_remove D) = false -> pessimistic_estimate (pmf_add D) = false ->
     pld_delta r (Fin e) <= pld_delta r0 (Fin e) <= pld_delta r (Fin e) + tail).
Proof. exact pld_truncation. Qed.
Print Assumptions C15_truncation.

Example C15_example : exists r0 r, pld_compose coin_pld coin_pld 0 = Ok r0 /\
  pld_compose coin_pld coin_pld (1/2) = Ok r.
Proof. exact truncation_example. Qed.

(** C15, finding: composition with truncation can raise IndexError on valid
    objects (finite mass at most half of the truncation mass). *)
Theorem C15_total_refuted : exists D tail, sound_pld D /\ 0 < tail /\
  pld_compose D D tail = Err IndexError.
Proof. exact compose_raises. Qed.
Print Assumptions C15_total_refuted.

(** C16: start from identity(), compose any number of PLDs with any tail
    truncations; then the answers hold for every adaptive interaction with
    computations bounded by these PLDs. *)
Theorem C16_adaptive_accounting : forall disc I l D E, 0 < disc -> identity disc = Ok I ->
  (forall Dt, In Dt l -> sound_pld (fst Dt)) ->
  compose_all I l = Ok D ->
  interaction (map (fun Dt => pld_bounds (fst Dt)) l) E ->
  (forall eps, dp_both E eps (pld_delta D (Fin eps))) /\
  (forall delta e, pld_epsilon D delta = Ok (Fin e) -> dp_both E e delta).
Proof. exact adaptive_accounting. Qed.
Print Assumptions C16_adaptive_accounting.

(** Any number of rounds of randomized response, each bounded by [coin_pld]. *)
Example C16_example : sound_pld coin_pld /\ pld_bounds coin_pld bit /\
  (forall n, exists E, interaction (repeat (pld_bounds coin_pld) n) E) /\
  (forall n, exists I D, identity (ln 2) = Ok I /\ compose_all I (repeat (coin_pld, 0) n) = Ok D).
Proof. exact (conj coin_sound (conj bit_bounds (conj bits_interact coin_composes))). Qed.

(** C17: composition is convolution.  [ks] lists the losses of [p]. *)
Theorem C17_convolution : forall p q r k ks, wf p -> wf q ->
  compose_pmfs p q 0 = Ok r -> covers ks p ->
  mass r k = rsum (fun i => mass p i * mass q (k - i)) ks /\
  1 - infinity_mass r = (1 - infinity_mass p) * (1 - infinity_mass q) /\
  discretization r = discretization p.
Proof. exact compose_mass. Qed.
Print Assumptions C17_convolution.

(** C17: an object composes its two pmfs separately. *)
Theorem C17_componentwise : forall D D' tail r, wf_pld D -> wf_pld D' ->
  pld_compose D D' tail = Ok r ->
  compose_pmfs (pmf_remove D) (pmf_remove D') tail = Ok (pmf_remove r) /\
  compose_pmfs (pmf_add D) (pmf_add D') tail = Ok (pmf_add r) /\
  (symmetric r = true -> pmf_add r = pmf_remove r).
Proof. exact (fun D D' tail r W W' H => pld_compose_inv D D' tail r H (proj2 (proj2 W)) (proj2 (proj2 W'))). Qed.
Print Assumptions C17_componentwise.

Theorem C17_commutative : forall p q r r', wf p -> wf q ->
  compose_pmfs p q 0 = Ok r -> compose_pmfs q p 0 = Ok r' -> same_distribution r r'.
Proof. exact compose_comm. Qed.
Print Assumptions C17_commutative.

Theorem C17_associative : forall p q s pq qs r r', wf p -> wf q -> wf s ->
  infinity_mass p <= 1 -> infinity_mass q <= 1 -> infinity_mass s <= 1 ->
  compose_pmfs p q 0 = Ok pq -> compose_pmfs pq s 0 = Ok r ->
  compose_pmfs q s 0 = Ok qs -> compose_pmfs p qs 0 = Ok r' -> same_distribution r r'.
Proof. exact compose_assoc. Qed.
Print Assumptions C17_associative.

Theorem C17_identity : forall p disc I r, wf p -> 0 < disc -> identity disc = Ok I ->
  compose_pmfs p (pmf_remove I) 0 = Ok r -> same_distribution r p.
Proof. exact compose_identity_r. Qed.
Print Assumptions C17_identity.

(** C17: the result depends only on the distributions, not on whether they are
    stored sparse or dense. *)
Theorem C17_representation : forall p p' q q' r r', wf p -> wf q -> wf p' -> wf q' ->
  same_distribution p p' -> same_distribution q q' ->
  compose_pmfs p q 0 = Ok r -> compose_pmfs p' q' 0 = Ok r' -> same_distribution r r'.
Proof. exact compose_same. Qed.
Print Assumptions C17_representation.

(** C17: composition succeeds, whatever the representations, unless the finite
    mass is at most half the truncation mass. *)
Theorem C17_total : forall p q tail kp kq, wf p -> wf q -> covers kp p -> covers kq q ->
  discretization p = discretization q -> pessimistic_estimate p = pessimistic_estimate q ->
  pmf_size p <> 0%nat -> pmf_size q <> 0%nat ->
  0 <= tail -> (tail = 0 \/ tail / 2 < rsum (mass p) kp * rsum (mass q) kq) ->
  exists r, compose_pmfs p q tail = Ok r.
Proof. exact compose_total_mass. Qed.
Print Assumptions C17_total.

Example C17_example : wf (pmf_remove skew_pld) /\ wf (pmf_add skew_pld) /\
  exists r, compose_pmfs (pmf_remove skew_pld) (pmf_add skew_pld) 0 = Ok r.
Proof. exact convolution_example. Qed.

(** C18: self_compose against composing copies one by one.  [fast_len] is
    scipy's next_fast_len, any function at least the identity. *)
Theorem C18_self_compose : forall fast_len p n tail r r' e,
  (forall k, (k <= fast_len k)%nat) -> wf p -> infinity_mass p <= 1 -> 0 <= tail ->
  pmf_self_compose fast_len p n tail = Ok r -> copies p (Z.to_nat n) r' ->
  (tail = 0 -> same_distribution r r') /\
  (pessimistic_estimate p = true ->
   pmf_delta r' (Fin e) <= pmf_delta r (Fin e) <= pmf_delta r' (Fin e) + 2 * tail).
Proof. exact self_compose_copies. Qed.
Print Assumptions C18_self_compose.

(** C18: hence a self composed PLD bounds n adaptive rounds. *)
Theorem C18_self_compose_adaptive : forall fast_len D n tail r E,
  (forall k, (k <= fast_len k)%nat) -> sound_pld D -> 0 <= tail ->
  pld_self_compose fast_len D n tail = Ok r ->
  interaction (repeat (pld_bounds D) (Z.to_nat n)) E ->
  (forall eps, dp_both E eps (pld_delta r (Fin eps))) /\
  (forall delta e, pld_epsilon r delta = Ok (Fin e) -> dp_both E e delta).
Proof. exact self_adaptive. Qed.
Print Assumptions C18_self_compose_adaptive.

(** C18: without truncation it succeeds for every n; with truncation it does unless the
    finite losses have a probability so small that half the tail covers it. *)
Theorem C18_self_compose_total : forall fast_len p ks n tail, wf p -> covers ks p ->
  pmf_size p <> 0%nat -> 0 < rsum (mass p) ks -> infinity_mass p < 1 -> (1 <= n)%Z -> 0 <= tail ->
  (tail = 0 \/ tail / 2 < rsum (mass p) ks ^ Z.to_nat n) ->
  exists r, pmf_self_compose fast_len p n tail = Ok r.
Proof. exact self_total_mass. Qed.
Print Assumptions C18_self_compose_total.

Example C18_example : forall n, exists r, pld_self_compose (fun k => k) coin_pld (Z.of_nat (S n)) 0 = Ok r.
Proof. exact self_example. Qed.

(** C18, finding: for an optimistic dense pmf truncation may raise delta, so the
    result is no lower bound. *)
Theorem C18_optimistic_refuted : exists p fast_len r r',
  wf p /\ infinity_mass p <= 1 /\ pessimistic_estimate p = false /\ (forall k, (k <= fast_len k)%nat) /\
  pmf_self_compose fast_len p 1 (1/2) = Ok r /\ copies p 1 r' /\
  pmf_delta r' (Fin 1) < pmf_delta r (Fin 1).
Proof. exact optimistic_dense. Qed.
Print Assumptions C18_optimistic_refuted.

(** C19: the sum of [n] independent draws from the list falls below the lower
    bound, and above the upper bound, with probability at most tail/2 each. *)
Theorem C19_self_convolve_bounds : forall l n tail orders lo up,
  (forall x, In x l -> 0 <= x) -> (0 <= n)%Z -> 0 <= tail ->
  compute_self_convolve_bounds l n tail orders = Ok (lo, up) ->
  (0 <= lo)%Z /\ (up <= (Z.of_nat (length l) - 1) * n)%Z /\
  prob_sum (zrange 0 (length l)) (fun i => nth (Z.to_nat i) l 0) (Z.to_nat n)
           (fun s => (s <? lo)%Z) <= tail / 2 /\
  prob_sum (zrange 0 (length l)) (fun i => nth (Z.to_nat i) l 0) (Z.to_nat n)
           (fun s => (up <? s)%Z) <= tail / 2.
Proof. exact bounds_prob. Qed.
Print Assumptions C19_self_convolve_bounds.

Example C19_example : exists b, compute_self_convolve_bounds [1/2; 1/4; 1/4] 100 (1/1000) None = Ok b.
Proof. exact bounds_example. Qed.

(** C20: delta of a composed PLD without composing. *)
Theorem C20_composed_delta : forall D D' r eps,
  sound_pld D -> sound_pld D' ->
  pmf_size (pmf_remove D) <> 0%nat -> pmf_size (pmf_remove D') <> 0%nat ->
  pmf_size (pmf_add D) <> 0%nat -> pmf_size (pmf_add D') <> 0%nat ->
  pld_compose D D' 0 = Ok r ->
  pld_composed_delta D D' eps = Ok (pld_delta r (Fin eps)).
Proof. exact pld_composed_delta_ok. Qed.
Print Assumptions C20_composed_delta.

Example C20_example : sound_pld coin_pld /\ sound_pld skew_pld /\
  exists r, pld_compose coin_pld skew_pld 0 = Ok r.
Proof. exact (conj coin_sound (conj skew_sound composed_example)). Qed.
