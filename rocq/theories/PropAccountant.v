(** Properties of the accountants.  [frac] and [fuel] are the numerical routine for
    fractional orders and the bound of a search, both arbitrary; [gaussian_pld],
    [laplace_pld] and [mixture_pld] are the constructors for continuous mechanisms. *)
From Coq Require Import Permutation.
From Verif Require Import Base XReal Exn TypesEvent TypesRelation SpecEvent SpecDP SpecPld SpecMake SpecRenyi SpecRdp
  ModelBuilder ModelPmf ModelPld ModelMake ModelRdp ModelAccountant SpecAccountant SpecAccPld
  ProofAccGen ProofAccRdp ProofAccAdd ProofAccMono ProofAccPld ProofLedger ProofAccSound ProofAccTop ProofAccEx ProofMoreEx.

(** C04: compose raising UnsupportedEventError leaves the accountant (its state, so what it
    reports, and its ledger) unchanged. *)
Theorem C04_rdp_unsupported : forall frac fuel rel orders A ea n A',
  acc_compose (rdp_mc frac fuel rel orders) A ea n = (A', Err UnsupportedEventError) -> A' = A.
Proof. exact rdp_unsupported. Qed.
Print Assumptions C04_rdp_unsupported.

Theorem C04_pld_unsupported : forall gaussian_pld laplace_pld mixture_pld fast_len rel disc tail A ea n A',
  constructors_clean gaussian_pld laplace_pld mixture_pld ->
  acc_compose (pld_mc gaussian_pld laplace_pld mixture_pld fast_len rel disc tail) A ea n = (A', Err UnsupportedEventError) ->
  A' = A.
Proof. exact pld_unsupported. Qed.
Print Assumptions C04_pld_unsupported.

(** A composition of a supported and an unsupported event, as the second call. *)
Example C04_example : forall frac fuel A,
  acc_compose (rdp_mc frac fuel ADD_OR_REMOVE_ONE [Fin 2]) A
    (EventObj (SelfComposed (Composed [Gaussian (PyFloat 1); RandResp (PyFloat (1/2)) 2]) 3)) 2
  = (A, Err UnsupportedEventError).
Proof. exact unsupported_example. Qed.

(** C05: supports() returns False exactly when compose() raises UnsupportedEventError, for
    every count and whatever the two accountants have composed before; otherwise it returns
    True or raises what compose() raises; it changes nothing. *)
Theorem C05_rdp_supports : forall frac fuel rel orders A A' e n,
  let mc := rdp_mc frac fuel rel orders in
  fst (acc_supports mc A e) = A /\
  (snd (acc_supports mc A e) = Ok false <-> snd (acc_compose mc A' (EventObj e) n) = Err UnsupportedEventError) /\
  (forall x, snd (acc_supports mc A e) = Err x -> snd (acc_compose mc A' (EventObj e) n) = Err x).
Proof. exact rdp_supports. Qed.
Print Assumptions C05_rdp_supports.

Theorem C05_pld_supports : forall gaussian_pld laplace_pld mixture_pld fast_len rel disc tail A A' e n,
  constructors_clean gaussian_pld laplace_pld mixture_pld ->
  let mc := pld_mc gaussian_pld laplace_pld mixture_pld fast_len rel disc tail in
  fst (acc_supports mc A e) = A /\
  (snd (acc_supports mc A e) = Ok false <-> snd (acc_compose mc A' (EventObj e) n) = Err UnsupportedEventError) /\
  (exists b, snd (acc_supports mc A e) = Ok b).
Proof. exact pld_supports. Qed.
Print Assumptions C05_pld_supports.

Example C05_example : forall frac fuel A gaussian_pld laplace_pld mixture_pld fast_len disc tail B,
  let rr := Composed [Gaussian (PyFloat 1); RandResp (PyFloat (1/2)) 2] in
  let rdp := rdp_mc frac fuel ADD_OR_REMOVE_ONE [Fin 2] in
  let pld rel := pld_mc gaussian_pld laplace_pld mixture_pld fast_len rel disc tail in
  snd (acc_supports rdp A (Composed [Gaussian (PyFloat 1); NoOp])) = Ok true /\
  snd (acc_supports rdp A rr) = Ok false /\
  snd (acc_supports (pld REPLACE_ONE) B rr) = Ok true /\
  snd (acc_supports (pld ADD_OR_REMOVE_ONE) B rr) = Ok false.
Proof. exact supports_example. Qed.
Example C05_clean_example :
  constructors_clean (fun _ _ => Err ValueError) (fun _ _ => Err ValueError) (fun _ _ _ => Err ValueError).
Proof. exact clean_example. Qed.

(** C06, for histories whose compose calls return: composing the ledger once on a fresh
    accountant gives the same RDP.  Missing: calls that raise, and integer arguments; both
    are refuted below. *)
Theorem C06_ledger_replay_partial : forall frac fuel rel orders h A,
  runs (rdp_mc frac fuel rel orders) (rdp_new orders) h A -> pos_history h ->
  Forall (fun en => floats (fst en)) h ->
  let L := snd (acc_get_ledger A) in
  atoms L = history_atoms h /\
  exists A', acc_compose (rdp_mc frac fuel rel orders) (rdp_new orders) (EventObj L) 1 = (A', Ok tt) /\
    acc_state A' = acc_state A.
Proof. exact ledger_replay. Qed.
Print Assumptions C06_ledger_replay_partial.

(** C06 is false after an exception: Laplace(0.0) is in the ledger but not accounted. *)
Theorem C06_exception_refuted : forall frac fuel, exists A',
  acc_compose (rdp_mc frac fuel ADD_OR_REMOVE_ONE [Fin 2]) (rdp_new [Fin 2]) (EventObj (Laplace (PyFloat 0))) 1
    = (A', Err ZeroDivisionError) /\
  snd (acc_get_ledger A') = Laplace (PyFloat 0) /\ acc_state A' = [Fin 0].
Proof. exact ledger_zero_div. Qed.
Print Assumptions C06_exception_refuted.

(** C06 is false with integers: the ledger merges events that compare equal although they
    are charged differently. *)
Theorem C06_integers_refuted : forall frac fuel, exists A A' L,
  runs (rdp_mc frac fuel ADD_OR_REMOVE_ONE [Fin 2]) (rdp_new [Fin 2])
    [(pair_of (PyFloat 1), 1%Z); (pair_of (PyInt 1), 1%Z)] A /\
  snd (acc_get_ledger A) = L /\
  acc_compose (rdp_mc frac fuel ADD_OR_REMOVE_ONE [Fin 2]) (rdp_new [Fin 2]) (EventObj L) 1 = (A', Ok tt) /\
  acc_state A = [Fin 3] /\ acc_state A' = [Fin 2].
Proof. exact int_merge. Qed.
Print Assumptions C06_integers_refuted.

Example C06_example : forall frac fuel rel, exists A,
  runs (rdp_mc frac fuel rel [Fin 2]) (rdp_new [Fin 2]) two_gaussians A /\ acc_state A = [Fin 7].
Proof. exact gaussians_run. Qed.
Example C06_example_hypotheses : pos_history two_gaussians /\ Forall (fun en => floats (fst en)) two_gaussians /\
  Forall (fun en => finite_means (fst en)) two_gaussians /\ Forall (fun en => no_repeat (fst en)) two_gaussians.
Proof. exact gaussians_ok. Qed.

(** C07, without repeat-and-select events and with positive counts in nested events:
    whatever compose does, RDP, epsilon and delta afterwards are at least those before. *)
Theorem C07_never_forgets_partial : forall frac fuel rel orders,
  moments_at_least_one frac -> orders_above_one orders -> forall cs e n A' r,
  Forall plain_call cs -> pos_counts e -> no_repeat e ->
  acc_compose (rdp_mc frac fuel rel orders) (acc_run (rdp_mc frac fuel rel orders) (rdp_new orders) cs) (EventObj e) n = (A', r) ->
  let A := acc_run (rdp_mc frac fuel rel orders) (rdp_new orders) cs in
  vec_le (acc_state A) (acc_state A') /\
  (forall delta x x', rdp_epsilon orders A delta = Ok x -> rdp_epsilon orders A' delta = Ok x' -> xleb x x' = true) /\
  (forall eps d d', rdp_delta orders A (Fin eps) = Ok d -> rdp_delta orders A' (Fin eps) = Ok d' -> xleb d d' = true).
Proof. exact compose_never_forgets. Qed.
Print Assumptions C07_never_forgets_partial.

(** C07 and C09 are false for repeat-and-select: after a non-private event, a failing
    compose call makes the accountant report a finite epsilon. *)
Theorem C07_repeat_refuted : forall frac fuel,
  let mc := rdp_mc frac fuel ADD_OR_REMOVE_ONE [Fin 2] in
  let A := fst (acc_compose mc (rdp_new [Fin 2]) (EventObj NonPrivate) 1) in
  let e := RepeatAndSelect (Gaussian (PyFloat 1)) (PyFloat (1/2)) (PyFloat 1) in
  snd (acc_compose mc A (EventObj e) 1) = Err ValueError /\
  rdp_epsilon [Fin 2] A (1/10) = Ok PInf /\
  exists x, rdp_epsilon [Fin 2] (fst (acc_compose mc A (EventObj e) 1)) (1/10) = Ok (Fin x).
Proof. exact repeat_forgets. Qed.
Print Assumptions C07_repeat_refuted.

Example C07_example : moments_at_least_one frac0 /\ orders_above_one [Fin 2] /\
  Forall plain_call (map (fun en => CallAcc (EventObj (fst en)) (snd en)) two_gaussians).
Proof. exact plain_example. Qed.

(** C08: the RDP of an accountant is the sum of the charges of the elementary events of its
    history, one per repetition; so order, grouping and counts do not matter. *)
Theorem C08_additive : forall frac fuel rel orders h A,
  runs (rdp_mc frac fuel rel orders) (rdp_new orders) h A -> pos_history h ->
  (forall a, In a (history_atoms h) -> composes frac fuel rel orders a) /\
  acc_state A = vec_sum (length orders) (map (unit_charge frac fuel rel orders) (history_atoms h)).
Proof. exact rdp_additive. Qed.
Print Assumptions C08_additive.

Theorem C08_order_free : forall frac fuel rel orders h h' A,
  runs (rdp_mc frac fuel rel orders) (rdp_new orders) h A -> pos_history h -> pos_history h' ->
  Permutation (history_atoms h) (history_atoms h') ->
  exists A', runs (rdp_mc frac fuel rel orders) (rdp_new orders) h' A' /\ acc_state A' = acc_state A.
Proof. exact rdp_order_free. Qed.
Print Assumptions C08_order_free.

Example C08_example : forall frac fuel rel,
  (exists A, runs (rdp_mc frac fuel rel [Fin 2]) (rdp_new [Fin 2]) two_gaussians A /\ acc_state A = [Fin 7]) /\
  pos_history two_gaussians /\ history_atoms two_gaussians = repeat (Gaussian (PyFloat 1)) 7.
Proof. exact additive_example. Qed.

(** C09: once a non-private event was composed, epsilon is infinite and delta is 1 for ever.
    For the RDP accountant without repeat-and-select events (see [C07_repeat_refuted]). *)
Theorem C09_rdp_never_forgotten_partial : forall frac fuel rel orders,
  moments_at_least_one frac -> orders_above_one orders -> forall cs e n A' cs',
  orders <> [] -> Forall plain_call cs -> Forall plain_call cs' -> pos_counts e -> no_repeat e ->
  acc_compose (rdp_mc frac fuel rel orders) (acc_run (rdp_mc frac fuel rel orders) (rdp_new orders) cs) (EventObj e) n = (A', Ok tt) ->
  (exists a, In a (atoms e) /\ not_private a) ->
  let A := acc_run (rdp_mc frac fuel rel orders) A' cs' in
  (forall delta, 0 <= delta <= 1 -> rdp_epsilon orders A delta = Ok PInf) /\
  (forall eps, 0 <= eps -> rdp_delta orders A (Fin eps) = Ok (Fin 1)).
Proof. exact never_forgotten. Qed.
Print Assumptions C09_rdp_never_forgotten_partial.

Theorem C09_pld_never_forgotten : forall gaussian_pld laplace_pld mixture_pld fast_len rel disc tail A A' e n cs,
  let mc := pld_mc gaussian_pld laplace_pld mixture_pld fast_len rel disc tail in
  acc_compose mc A (EventObj e) n = (A', Ok tt) ->
  (exists a, In a (atoms e) /\ not_private a) ->
  (forall delta, pldacc_epsilon (acc_state (acc_run mc A' cs)) delta = Ok PInf) /\
  (forall eps, pldacc_delta (acc_state (acc_run mc A' cs)) eps = 1).
Proof. exact pld_never_forgotten. Qed.
Print Assumptions C09_pld_never_forgotten.

Example C09_example : forall frac fuel rel,
  let e := SelfComposed (Composed [Gaussian (PyFloat 1); NonPrivate]) 2 in
  pos_counts e /\ no_repeat e /\ In NonPrivate (atoms e) /\
  exists A', acc_compose (rdp_mc frac fuel rel [Fin 2]) (rdp_new [Fin 2]) (EventObj e) 3 = (A', Ok tt).
Proof. exact nonprivate_example. Qed.

(** C10: the numbers a PLD accountant reports are a guarantee for the adaptive interaction
    that runs every elementary event as often as its counts say.  The hypothesis on the
    runs excludes repeated randomised response, for which the claim is refuted below. *)
Theorem C10_sound_partial : forall gaussian_pld laplace_pld mixture_pld fast_len rel disc tail mech,
  (forall k, (k <= fast_len k)%nat) -> 0 <= tail -> 0 < disc -> forall A0 h A E,
  pld_new disc = Ok A0 -> runs (pld_mc gaussian_pld laplace_pld mixture_pld fast_len rel disc tail) A0 h A -> pos_history h ->
  Forall (run_sound gaussian_pld laplace_pld mixture_pld rel tail mech) (history_runs h) ->
  (forall a F, mech a F -> valid F) ->
  interaction (run_classes mech (history_runs h)) E ->
  (forall eps, dp_both E eps (pldacc_delta (acc_state A) (Fin eps))) /\
  (forall delta e, pldacc_epsilon (acc_state A) delta = Ok (Fin e) -> dp_both E e delta).
Proof. exact pld_accountant_sound. Qed.
Print Assumptions C10_sound_partial.

(** C10 is false for randomised response: a count of 2 is charged as one run, the delta is
    smaller than for two calls and is not a guarantee for two runs. *)
Theorem C10_randomized_response_refuted : forall gaussian_pld laplace_pld mixture_pld fast_len,
  let mc := pld_mc gaussian_pld laplace_pld mixture_pld fast_len REPLACE_ONE (1/2) 0 in
  exists A0 A1 A2 E, let eps := Fin (ln 3 + 1/2) in
    pld_new (1/2) = Ok A0 /\
    acc_compose mc A0 (EventObj rr_event) 2 = (A1, Ok tt) /\
    runs mc A0 [(rr_event, 1%Z); (rr_event, 1%Z)] A2 /\
    pldacc_delta (acc_state A1) eps < pldacc_delta (acc_state A2) eps /\
    interaction (repeat (rr_pair REPLACE_ONE (1/2) 2) 2) E /\
    ~ dp_both E (ln 3 + 1/2) (pldacc_delta (acc_state A1) eps).
Proof. exact rr_count. Qed.
Print Assumptions C10_randomized_response_refuted.

Example C10_example : exists A0 A E, pld_new (ln 2) = Ok A0 /\
  runs (pld_mc no_pld2 coin_laplace no_pld3 (fun k => k) REPLACE_ONE (ln 2) 0) A0 two_laplaces A /\
  interaction (run_classes coin_mech (history_runs two_laplaces)) E.
Proof. exact coin_runs. Qed.
Example C10_example_runs : Forall (run_sound no_pld2 coin_laplace no_pld3 REPLACE_ONE 0 coin_mech) (history_runs two_laplaces).
Proof. exact coin_run_sound. Qed.

(** C11, for positive float noise multipliers: a sampled tree of Gaussian events is charged
    exactly as the sampled Gaussian event with the effective noise multiplier. *)
Theorem C11_effective_noise_partial : forall e, gaussian_tree e ->
  exists s, 0 < s /\ / (s * s) = rsum (fun a => / (sigma_of a * sigma_of a)) (atoms e) /\
  forall frac fuel rel orders dc state n,
    (forall q, rdp_mc frac fuel rel orders dc state (PoissonSampled q e) n =
               rdp_mc frac fuel rel orders dc state (PoissonSampled q (Gaussian (PyFloat s))) n) /\
    (forall a b, rdp_mc frac fuel rel orders dc state (SampledWithoutReplacement a b e) n =
                 rdp_mc frac fuel rel orders dc state (SampledWithoutReplacement a b (Gaussian (PyFloat s))) n).
Proof. exact gaussian_effective. Qed.
Print Assumptions C11_effective_noise_partial.

(** C11: any other event in the tree makes it unsupported. *)
Theorem C11_other_unsupported : forall e, mixed_tree e -> other_leaf e = true -> forall frac fuel rel orders A n,
  (forall q, acc_compose (rdp_mc frac fuel rel orders) A (EventObj (PoissonSampled q e)) n = (A, Err UnsupportedEventError)) /\
  (forall a b, acc_compose (rdp_mc frac fuel rel orders) A (EventObj (SampledWithoutReplacement a b e)) n = (A, Err UnsupportedEventError)).
Proof. exact mixed_unsupported. Qed.
Print Assumptions C11_other_unsupported.

(** C11 is false for an integer noise multiplier: of two Gaussian events only one is
    charged. *)
Theorem C11_integers_refuted : forall frac fuel,
  acc_state (fst (acc_compose (rdp_mc frac fuel ADD_OR_REMOVE_ONE [Fin 2]) (rdp_new [Fin 2]) (EventObj (pair_of (PyFloat 1))) 1)) = [Fin 2] /\
  acc_state (fst (acc_compose (rdp_mc frac fuel ADD_OR_REMOVE_ONE [Fin 2]) (rdp_new [Fin 2]) (EventObj (pair_of (PyInt 1))) 1)) = [Fin 1].
Proof. exact pair_differs. Qed.
Print Assumptions C11_integers_refuted.

Example C11_example : gaussian_tree (Composed [Gaussian (PyFloat 1); SelfComposed (Gaussian (PyFloat 2)) 4]) /\
  mixed_tree (Composed [Gaussian (PyFloat 1); SelfComposed (Laplace (PyFloat 2)) 4]) /\
  other_leaf (Composed [Gaussian (PyFloat 1); SelfComposed (Laplace (PyFloat 2)) 4]) = true.
Proof. exact tree_example. Qed.

(** C38: composing more events never lowers the RDP, epsilon or delta. *)
Theorem C38_history_mono : forall frac fuel rel orders,
  moments_at_least_one frac -> orders_above_one orders -> forall h1 h2 A1 A2,
  runs (rdp_mc frac fuel rel orders) (rdp_new orders) h1 A1 ->
  runs (rdp_mc frac fuel rel orders) A1 h2 A2 ->
  pos_history (h1 ++ h2) -> Forall (fun en => finite_means (fst en)) (h1 ++ h2) ->
  vec_pos (acc_state A1) /\ vec_le (acc_state A1) (acc_state A2) /\
  (forall delta e e', rdp_epsilon orders A1 delta = Ok e -> rdp_epsilon orders A2 delta = Ok e' -> xleb e e' = true) /\
  (forall eps d d', rdp_delta orders A1 (Fin eps) = Ok d -> rdp_delta orders A2 (Fin eps) = Ok d' -> xleb d d' = true).
Proof. exact history_mono. Qed.
Print Assumptions C38_history_mono.

Example C38_history_example : moments_at_least_one (fun _ _ _ => Fin 0) /\
  forall frac fuel rel, exists e1 n1 e2 n2 A1 A2,
  runs (rdp_mc frac fuel rel [Fin 2]) (rdp_new [Fin 2]) [(e1, n1)] A1 /\
  runs (rdp_mc frac fuel rel [Fin 2]) A1 [(e2, n2)] A2 /\
  pos_history ([(e1, n1)] ++ [(e2, n2)]) /\ Forall (fun en => finite_means (fst en)) ([(e1, n1)] ++ [(e2, n2)]) /\
  orders_above_one [Fin 2] /\ acc_state A2 = [Fin 7].
Proof. exact (conj frac_example history_example). Qed.

(** C39: if every elementary event stands for a computation that satisfies the RDP bound a
    fresh accountant reports for it, the whole adaptive interaction satisfies the reported
    RDP, and the reported epsilon and delta are guarantees. *)
Theorem C39_adaptive : forall frac fuel rel orders h A E,
  (forall a, In a orders -> order_ok a) -> runs (rdp_mc frac fuel rel orders) (rdp_new orders) h A -> pos_history h ->
  interaction (map (fun a => rdp_curve orders (unit_charge frac fuel rel orders a)) (history_atoms h)) E ->
  rdp_curve orders (acc_state A) E /\
  (orders <> [] -> real_orders orders -> forall delta e, rdp_epsilon orders A delta = Ok (Fin e) -> dp_both E e delta) /\
  (forall eps d, rdp_delta orders A (Fin eps) = Ok d -> exists x, d = Fin x /\ 0 <= x <= 1 /\ dp_both E eps x).
Proof. exact adaptive. Qed.
Print Assumptions C39_adaptive.

Example C39_example : forall frac fuel rel, exists A E,
  runs (rdp_mc frac fuel rel [Fin 2]) (rdp_new [Fin 2]) two_gaussians A /\
  interaction (map (fun a => rdp_curve [Fin 2] (unit_charge frac fuel rel [Fin 2] a)) (history_atoms two_gaussians)) E /\
  length (history_atoms two_gaussians) = 7%nat.
Proof. exact adaptive_example. Qed.
