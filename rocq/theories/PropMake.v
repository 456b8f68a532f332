(** Properties C21 to C25 and C55: construction of privacy loss distributions. *)
From Coq Require Import Sorting.Sorted.
From Verif Require Import Base XReal Exn PyDict TypesRelation ModelCommon ModelPmf ModelPld ModelMake
  SpecDP SpecPmf SpecPld SpecMake ProofPldApi ProofTwo ProofRR ProofParams ProofDots ProofCdf ProofMakeEx ProofMoreEx.

(** C21: pessimistic estimates, for outcomes of any type [O] with decidable
    equality.  [bound] is the truncation bound on log probabilities (None is
    -inf).  The result is at least the hockey stick divergence and at most that
    at a shifted epsilon plus the truncated mass. *)
Theorem C21_pessimistic : forall (O : Type) (eqb : O -> O -> bool) lower upper disc bound sym D,
  (forall a b, eqb a b = true <-> a = b) -> 0 < disc -> distribution lower -> distribution upper ->
  from_two_pmfs eqb lower upper true disc bound sym = Ok D ->
  sound_pld D /\ proper (pmf_remove D) /\ proper (pmf_add D) /\ symmetric D = sym /\
  valid (two_exper eqb upper lower) /\
  (forall eps, hockey_stick (two_exper eqb upper lower) eps <= pmf_delta (pmf_remove D) (Fin eps) <=
     hockey_stick (two_exper eqb upper lower) (eps - disc) +
     match bound with Some b => INR (length lower) * exp b | None => 0 end) /\
  (sym = false -> forall eps,
     hockey_stick (swap (two_exper eqb upper lower)) eps <= pmf_delta (pmf_add D) (Fin eps) <=
     hockey_stick (swap (two_exper eqb upper lower)) (eps - disc) +
     match bound with Some b => INR (length upper) * exp b | None => 0 end).
Proof. exact (fun O eqb lower upper disc bound sym D H => two_pessimistic eqb H lower upper disc bound sym D). Qed.
Print Assumptions C21_pessimistic.

(** C21: hence the object bounds the pair in both directions; a symmetric object
    needs a pair whose second direction is no worse. *)
Theorem C21_bounds : forall (O : Type) (eqb : O -> O -> bool) lower upper disc bound sym D,
  (forall a b, eqb a b = true <-> a = b) -> 0 < disc -> distribution lower -> distribution upper ->
  from_two_pmfs eqb lower upper true disc bound sym = Ok D ->
  (sym = true -> forall eps, hockey_stick (swap (two_exper eqb upper lower)) eps <=
                             hockey_stick (two_exper eqb upper lower) eps) ->
  pld_bounds D (two_exper eqb upper lower).
Proof. exact (fun O eqb lower upper disc bound sym D H => two_bounds eqb H lower upper disc bound sym D). Qed.
Print Assumptions C21_bounds.

Theorem C21_optimistic : forall (O : Type) (eqb : O -> O -> bool) lower upper disc bound sym D,
  (forall a b, eqb a b = true <-> a = b) -> 0 < disc -> distribution lower -> distribution upper ->
  from_two_pmfs eqb lower upper false disc bound sym = Ok D ->
  wf_pld D /\ symmetric D = sym /\
  (forall eps, pmf_delta (pmf_remove D) (Fin eps) <= hockey_stick (two_exper eqb upper lower) eps) /\
  (bound = None -> forall eps, hockey_stick (two_exper eqb upper lower) (eps + disc) <=
                               pmf_delta (pmf_remove D) (Fin eps)) /\
  (sym = false ->
   (forall eps, pmf_delta (pmf_add D) (Fin eps) <= hockey_stick (swap (two_exper eqb upper lower)) eps) /\
   (bound = None -> forall eps, hockey_stick (swap (two_exper eqb upper lower)) (eps + disc) <=
                                pmf_delta (pmf_add D) (Fin eps))).
Proof. exact (fun O eqb lower upper disc bound sym D H => two_optimistic eqb H lower upper disc bound sym D). Qed.
Print Assumptions C21_optimistic.

(** C21: exact when every privacy loss is a multiple of the interval. *)
Theorem C21_exact : forall (O : Type) (eqb : O -> O -> bool) lower upper pess disc sym D,
  (forall a b, eqb a b = true <-> a = b) -> 0 < disc -> distribution lower -> distribution upper ->
  (forall o lp lq, In (o, Some lp) upper -> In (o, Some lq) lower -> exists k, lp - lq = IZR k * disc) ->
  from_two_pmfs eqb lower upper pess disc None sym = Ok D ->
  (forall eps, pmf_delta (pmf_remove D) (Fin eps) = hockey_stick (two_exper eqb upper lower) eps) /\
  (sym = false -> forall eps, pmf_delta (pmf_add D) (Fin eps) =
                              hockey_stick (swap (two_exper eqb upper lower)) eps).
Proof. exact (fun O eqb lower upper pess disc sym D H => two_exact eqb H lower upper pess disc sym D). Qed.
Print Assumptions C21_exact.

Theorem C21_total : forall (O : Type) (eqb : O -> O -> bool) lower upper pess disc bound sym, 0 < disc ->
  exists D, from_two_pmfs eqb lower upper pess disc bound sym = Ok D.
Proof. exact (fun O eqb => two_total eqb). Qed.
Print Assumptions C21_total.

(** A pair with outcomes on one side only, zero probabilities and a truncation
    bound. *)
Example C21_example : distribution leak_upper /\ distribution leak_lower /\
  exists D, from_two_pmfs Z.eqb leak_lower leak_upper true (1/10) (Some (-50)) false = Ok D.
Proof. exact leak_example. Qed.

(** C22: whatever the accepted values, the result bounds every privacy curve
    (mechanism) that they bound on the grid; and it is never below the values. *)
Theorem C22_dominates : forall disc eps deltas p h, 0 < disc ->
  connect_dots disc eps deltas = Ok p -> privacy_curve h ->
  (forall z d, In (z, d) (combine eps deltas) -> h (exp (IZR z * disc)) <= d) ->
  forall e, h (exp e) <= pmf_delta p (Fin e).
Proof. exact (fun disc eps deltas p h Hd => dots_dominates disc Hd eps deltas p h). Qed.
Print Assumptions C22_dominates.

Theorem C22_dominates_mechanism : forall disc eps deltas p E, 0 < disc ->
  connect_dots disc eps deltas = Ok p -> valid E ->
  (forall z d, In (z, d) (combine eps deltas) -> dp E (IZR z * disc) d) ->
  forall e, dp E e (pmf_delta p (Fin e)).
Proof. exact dots_dominates_exper. Qed.
Print Assumptions C22_dominates_mechanism.

Theorem C22_at_least : forall disc eps deltas p, 0 < disc -> connect_dots disc eps deltas = Ok p ->
  forall z d, In (z, d) (combine eps deltas) -> d <= pmf_delta p (Fin (IZR z * disc)).
Proof. exact (fun disc eps deltas p Hd => dots_at_least disc Hd eps deltas p). Qed.
Print Assumptions C22_at_least.

(** C22: values of a privacy curve on the grid: a probability distribution that
    hits every dot and bounds the curve everywhere. *)
Theorem C22_connects_dots : forall disc eps p h, 0 < disc -> privacy_curve h ->
  connect_dots disc eps (map (fun z => h (exp (IZR z * disc))) eps) = Ok p ->
  proper p /\ (forall z, In z eps -> pmf_delta p (Fin (IZR z * disc)) = h (exp (IZR z * disc))) /\
  (forall e, h (exp e) <= pmf_delta p (Fin e)).
Proof. exact (fun disc eps p h Hd => dots_curve disc Hd eps p h). Qed.
Print Assumptions C22_connects_dots.

Theorem C22_total : forall disc eps h, 0 < disc -> privacy_curve h -> eps <> [] -> StronglySorted Z.lt eps ->
  exists p, connect_dots disc eps (map (fun z => h (exp (IZR z * disc))) eps) = Ok p.
Proof. exact (fun disc eps h Hd => dots_total disc Hd eps h). Qed.
Print Assumptions C22_total.

(** Hockey stick divergences are privacy curves; an irregular grid. *)
Example C22_example : privacy_curve (fun t => ProofDP.hs bit 1 t) /\ exists p,
  connect_dots (1/10) [(-1)%Z; 0%Z; 7%Z]
    (map (fun z => ProofDP.hs bit 1 (exp (IZR z * (1/10)))) [(-1)%Z; 0%Z; 7%Z]) = Ok p.
Proof. exact (conj (exper_curve bit (proj1 bit_dp)) dots_example). Qed.

(** C22, finding: values in [0,1] that decrease but are not convex in e^eps are
    accepted; the result then exceeds them and is no probability distribution. *)
Theorem C22_not_convex_refuted : exists disc eps deltas p z d, 0 < disc /\
  connect_dots disc eps deltas = Ok p /\ In (z, d) (combine eps deltas) /\
  d < pmf_delta p (Fin (IZR z * disc)) /\ ~ proper p.
Proof. exact dots_not_convex. Qed.
Print Assumptions C22_not_convex_refuted.

(** C23: same result, including the errors. *)
Theorem C23_fixed_gap : forall disc lower upper deltas, 0 < disc ->
  connect_dots_fixed_gap disc lower upper deltas =
  connect_dots disc (zrange lower (Z.to_nat (upper - lower + 1))) deltas.
Proof. exact (fun disc lower upper deltas Hd => fixed_gap_eq disc Hd lower upper deltas). Qed.
Print Assumptions C23_fixed_gap.

Example C23_example : exists p,
  connect_dots_fixed_gap (1/10) (-1) 1 (map (fun z => ProofDP.hs bit 1 (exp (IZR z * (1/10)))) [(-1)%Z; 0%Z; 1%Z]) = Ok p.
Proof. exact fixed_gap_example. Qed.

(** C24: every neighbouring pair of k-ary randomised response. *)
Theorem C24_pessimistic : forall p k disc rel D E, 0 < disc ->
  from_randomized_response p k true disc rel = Ok D -> rr_pair rel p k E ->
  sound_pld D /\ proper (pmf_remove D) /\ proper (pmf_add D) /\ pld_bounds D E /\
  forall eps, pmf_delta (pmf_remove D) (Fin eps) <= hockey_stick E (eps - disc) /\
              pmf_delta (pmf_add D) (Fin eps) <= hockey_stick (swap E) (eps - disc).
Proof. exact rr_pessimistic. Qed.
Print Assumptions C24_pessimistic.

Theorem C24_optimistic : forall p k disc rel D E, 0 < disc ->
  from_randomized_response p k false disc rel = Ok D -> rr_pair rel p k E ->
  wf_pld D /\ forall eps,
   hockey_stick E (eps + disc) <= pmf_delta (pmf_remove D) (Fin eps) <= hockey_stick E eps /\
   hockey_stick (swap E) (eps + disc) <= pmf_delta (pmf_add D) (Fin eps) <= hockey_stick (swap E) eps.
Proof. exact rr_optimistic. Qed.
Print Assumptions C24_optimistic.

(** C24: exact when the losses are on the grid. *)
Theorem C24_exact : forall p k pess disc rel D E, 0 < disc ->
  from_randomized_response p k pess disc rel = Ok D -> rr_pair rel p k E ->
  (forall l, In l match rel with
     | REPLACE_SPECIAL => [ln (1 - p * (IZR k - 1) / IZR k) + ln (IZR k); ln p]
     | _ => [ln ((1 - p * (IZR k - 1) / IZR k) / (p / IZR k))]
     end -> exists n, l = IZR n * disc) ->
  forall eps, pmf_delta (pmf_remove D) (Fin eps) = hockey_stick E eps /\
              pmf_delta (pmf_add D) (Fin eps) = hockey_stick (swap E) eps.
Proof. exact rr_exact. Qed.
Print Assumptions C24_exact.

(** C24: accepted parameters. *)
Theorem C24_total : forall p k pess disc rel, 0 < disc ->
  if (Rltb 0 p && Rltb p 1 && (1 <? k)%Z && negb (relation_eqb rel ADD_OR_REMOVE_ONE))%bool
  then exists D, from_randomized_response p k pess disc rel = Ok D
  else from_randomized_response p k pess disc rel = Err ValueError.
Proof. exact rr_total. Qed.
Print Assumptions C24_total.

Example C24_example : rr_pair REPLACE_ONE (1/2) 5 (rr_exper (1/2) 5 3 1) /\
  rr_pair REPLACE_SPECIAL (1/2) 5 (rr_special (1/2) 5 4) /\
  (exists D, from_randomized_response (1/2) 5 true (1/10) REPLACE_ONE = Ok D) /\
  (exists D, from_randomized_response (1/2) 5 true (1/10) REPLACE_SPECIAL = Ok D).
Proof. exact rr_example. Qed.

(** C25: any mechanism with the given guarantee, in both directions. *)
Theorem C25_dominates : forall eps delta pp disc D E, 0 < disc ->
  privacy_parameters eps delta = Ok pp -> from_privacy_parameters pp disc = Ok D ->
  valid E -> dp_both E eps delta -> pld_bounds D E.
Proof. exact params_bounds. Qed.
Print Assumptions C25_dominates.

Theorem C25_tight : forall eps delta pp disc D e, 0 < disc ->
  privacy_parameters eps delta = Ok pp -> from_privacy_parameters pp disc = Ok D ->
  eps + disc <= e \/ ((exists n, eps = IZR n * disc) /\ eps <= e) ->
  pld_delta D (Fin e) = delta.
Proof. exact params_tight. Qed.
Print Assumptions C25_tight.

Theorem C25_total : forall eps delta disc, 0 < disc ->
  if (Rleb 0 eps && Rleb 0 delta && Rleb delta 1)%bool
  then exists pp D, privacy_parameters eps delta = Ok pp /\ from_privacy_parameters pp disc = Ok D
  else privacy_parameters eps delta = Err ValueError.
Proof. exact params_total. Qed.
Print Assumptions C25_total.

Example C25_example : valid bit /\ dp_both bit (ln 2) 0.
Proof. exact bit_dp. Qed.

(** C55: a distribution of privacy losses [l] (probability [inf] at infinity)
    given by its CDF. *)
Theorem C55_pessimistic : forall fuel l inf disc tail D, 0 < disc -> 0 <= tail <= 1 ->
  (forall lp, In lp l -> 0 <= snd lp) -> rsum snd l + inf = 1 ->
  create_from_cdf fuel (loss_cdf l) true disc tail = Ok D ->
  sound_pld D /\ forall eps,
    inf + loss_curve l eps <= pld_delta D (Fin eps) <= tail + loss_curve l (eps - disc).
Proof. exact cdf_pessimistic. Qed.
Print Assumptions C55_pessimistic.

Theorem C55_optimistic : forall fuel l inf disc tail D, 0 < disc -> 0 <= tail ->
  (forall lp, In lp l -> 0 <= snd lp) -> rsum snd l + inf = 1 -> 0 <= inf ->
  create_from_cdf fuel (loss_cdf l) false disc tail = Ok D ->
  wf_pld D /\ forall eps,
    inf + loss_curve l (eps + disc) - tail <= pld_delta D (Fin eps) <= loss_curve l eps.
Proof. exact cdf_optimistic. Qed.
Print Assumptions C55_optimistic.

(** C55: the loops end when the probability of an infinite loss is at most half
    of the tail mass. *)
Theorem C55_terminates : forall l inf pess disc tail, 0 < disc -> 0 <= tail ->
  rsum snd l + inf = 1 -> inf <= tail / 2 ->
  exists fuel D, create_from_cdf fuel (loss_cdf l) pess disc tail = Ok D.
Proof. exact cdf_total. Qed.
Print Assumptions C55_terminates.

Example C55_example : exists fuel D,
  create_from_cdf fuel (loss_cdf [(1, 1/2); (-1/3, 1/3); (5, 1/7)]) true (1/10) (1/10) = Ok D.
Proof. exact cdf_example. Qed.
