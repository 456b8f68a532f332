(** C70-C72: the testers that train a model, and audits with them. *)
From Verif Require Import Base Exn XReal TypesAudit SpecDP SpecAudit SpecRenyi ModelAudit TypesTesters ModelTesters SpecTesters
  ProofHockey ProofHockeyBad ProofRenyiTester ProofTesterRun ProofTesterEx ProofTesterBounds ProofFit.

(** C70: the hockey-stick tester rejects an (epsilon, delta)-private mechanism with probability at
    most the failure probability, up to a factor that vanishes with the number of samples and that
    is due to rounding the number of samples that are used.  [keras] is any training procedure,
    with any state [w]; n samples of each are given, and n - n/2 of them are used to test. *)
Theorem C70_hockey_partial : forall E c t W (keras : list (outcome E * bool) -> W -> res ((outcome E -> R) * W)) eps delta failure n w,
  new_hockey c = Ok t -> a_epsilon (hc_approximate c) = Some eps -> a_delta (hc_approximate c) = Some delta ->
  valid E -> dp E eps delta -> 0 < failure ->
  mean (law_P E) n (fun s1 => mean (law_Q E) n (fun s2 =>
    indicator (rejects (fun vw => hockey_reject t (fst vw)) (hockey_estimate keras t s1 s2 failure w))))
  <= failure * exp (4 * sqrt (ln (1 / failure) / 2 / INR (n - n / 2))).
Proof. exact hockey_sound. Qed.
Print Assumptions C70_hockey_partial.
(** The bound is the failure probability when no rounding takes place. *)
Theorem C70_exact_partial : forall E c t W (keras : list (outcome E * bool) -> W -> res ((outcome E -> R) * W)) eps delta failure n k w,
  new_hockey c = Ok t -> a_epsilon (hc_approximate c) = Some eps -> a_delta (hc_approximate c) = Some delta ->
  valid E -> dp E eps delta -> 0 < failure -> INR (n - n / 2) = INR k * (1 + exp eps) ->
  mean (law_P E) n (fun s1 => mean (law_Q E) n (fun s2 =>
    indicator (rejects (fun vw => hockey_reject t (fst vw)) (hockey_estimate keras t s1 s2 failure w))))
  <= failure.
Proof. exact hockey_sound_exact. Qed.
Print Assumptions C70_exact_partial.
Example C70_example :
  mean (law_P rr) (2 * (4 * 25)) (fun s1 => mean (law_Q rr) (2 * (4 * 25)) (fun s2 =>
    indicator (rejects (fun vw => hockey_reject quarter (fst vw)) (hockey_estimate (A := outcome rr) counting quarter s1 s2 (1 / 20) 0%nat)))) <= 1 / 20.
Proof. exact hockey_example. Qed.
(** The estimate is a lower bound on the hockey-stick divergence, whatever the mechanism. *)
Theorem C70_lower_bound : forall E c t W (keras : list (outcome E * bool) -> W -> res ((outcome E -> R) * W)) eps failure n w,
  new_hockey c = Ok t -> a_epsilon (hc_approximate c) = Some eps -> valid E -> 0 < failure ->
  mean (law_P E) n (fun s1 => mean (law_Q E) n (fun s2 =>
    indicator (rejects (fun vw => xltb (Fin (hockey_stick E eps)) (fst vw)) (hockey_estimate keras t s1 s2 failure w))))
  <= failure * exp (4 * sqrt (ln (1 / failure) / 2 / INR (n - n / 2))).
Proof. exact hockey_lower. Qed.
Print Assumptions C70_lower_bound.
(** It is one less the allowance when the trained model separates the samples. *)
Theorem C70_separated : forall A c t W (keras : list (A * bool) -> W -> res ((A -> R) * W)) eps failure n s1 s2 w g w',
  new_hockey c = Ok t -> a_epsilon (hc_approximate c) = Some eps -> 0 < failure <= 1 ->
  (2 <= n)%nat -> List.length s1 = n -> List.length s2 = n ->
  (forall data, keras data w = Ok (g, w')) -> (forall a, In a s1 -> g a <= 0) -> (forall a, In a s2 -> 0 < g a) ->
  hockey_estimate keras t s1 s2 failure w
  = Ok (Fin (1 - (1 + exp eps) * sqrt (ln (1 / failure) / 2 / INR (n - n / 2))), w').
Proof. exact hockey_separated. Qed.
Print Assumptions C70_separated.
Example C70_separated_example : hockey_estimate sign_model quarter (repeat false 64) (repeat true 64) (exp (- (1))) tt = Ok (Fin (1 / 2), tt).
Proof. exact separated_example. Qed.
(** The model is trained on first halves of the samples, those of the first dataset labelled 0 and
    those of the second labelled 1, and evaluated on the second halves only.
    (C70_separated_example is a case that returns.) *)
Theorem C70_training : forall A W (keras : list (A * bool) -> W -> res ((A -> R) * W)) t s1 s2 failure w d w',
  hockey_estimate keras t s1 s2 failure w = Ok (d, w') ->
  exists data g, keras data w = Ok (g, w') /\
    (forall a b, In (a, b) data -> In a (firstn (List.length (if b then s2 else s1) / 2) (if b then s2 else s1))) /\
    hockey_compute t g (skipn (List.length s1 / 2) s1) (skipn (List.length s2 / 2) s2) failure = Ok d.
Proof. exact hockey_training. Qed.
Print Assumptions C70_training.
(** The factor cannot be dropped. *)
Theorem C70_rounding_refuted :
  ~ (forall E c t W (keras : list (outcome E * bool) -> W -> res ((outcome E -> R) * W)) eps delta failure n w,
      new_hockey c = Ok t -> a_epsilon (hc_approximate c) = Some eps -> a_delta (hc_approximate c) = Some delta ->
      valid E -> dp E eps delta -> 0 < failure < 1 ->
      mean (law_P E) n (fun s1 => mean (law_Q E) n (fun s2 =>
        indicator (rejects (fun vw => hockey_reject t (fst vw)) (hockey_estimate keras t s1 s2 failure w)))) <= failure).
Proof. exact hockey_refuted. Qed.
Print Assumptions C70_rounding_refuted.
(** With different numbers of samples of the two, a mechanism that ignores its input is rejected
    with certainty at failure probability 0.05. *)
Theorem C70_unequal_refuted :
  exists E c t W (keras : list (outcome E * bool) -> W -> res ((outcome E -> R) * W)) w n1 n2,
    new_hockey c = Ok t /\ valid E /\ (forall o, prP E o = prQ E o) /\
    mean (law_P E) n1 (fun s1 => mean (law_Q E) n2 (fun s2 =>
      indicator (rejects (fun vw => hockey_reject t (fst vw)) (hockey_estimate keras t s1 s2 (5 / 100) w)))) = 1.
Proof. exact unequal_refuted. Qed.
Print Assumptions C70_unequal_refuted.

(** C71: the Renyi tester rejects a mechanism that satisfies its pure or Renyi guarantee with
    probability at most the failure probability, for any numbers of samples, when its order is above
    one. *)
Theorem C71_renyi : forall E c t W (keras : list (outcome E) -> list (outcome E) -> W -> res ((outcome E -> R) * W)) failure n1 n2 w,
  new_renyi c = Ok t -> 1 < rc_alpha c -> valid E -> satisfies (rc_property c) E -> 0 < failure ->
  mean (law_P E) n1 (fun s1 => mean (law_Q E) n2 (fun s2 =>
    indicator (rejects (fun vw => renyi_reject t (fst vw)) (renyi_estimate keras t s1 s2 failure w)))) <= failure.
Proof. exact renyi_sound. Qed.
Print Assumptions C71_renyi.
Example C71_example : forall n1 n2,
  mean (law_P rr) n1 (fun s1 => mean (law_Q rr) n2 (fun s2 =>
    indicator (rejects (fun vw => renyi_reject (mkRenyi 2 (Rmin (ln 3) (2 * 2 * (ln 3 * ln 3))) 1) (fst vw))
      (renyi_estimate (A := outcome rr) freq_model (mkRenyi 2 (Rmin (ln 3) (2 * 2 * (ln 3 * ln 3))) 1) s1 s2 (1 / 20) 0%nat)))) <= 1 / 20.
Proof. exact renyi_example. Qed.
(** The estimate is a lower bound on the Renyi divergence, whatever the mechanism. *)
Theorem C71_lower_bound : forall E c t W (keras : list (outcome E) -> list (outcome E) -> W -> res ((outcome E -> R) * W)) failure n1 n2 w,
  new_renyi c = Ok t -> 1 < rc_alpha c -> valid E -> absolutely_continuous E -> 0 < failure ->
  mean (law_P E) n1 (fun s1 => mean (law_Q E) n2 (fun s2 =>
    indicator (rejects (fun vw => xltb (Fin (renyi E (rc_alpha c))) (fst vw)) (renyi_estimate keras t s1 s2 failure w)))) <= failure.
Proof. exact renyi_lower. Qed.
Print Assumptions C71_lower_bound.
(** Its value, with enough samples: the variational formula on the second halves of the samples,
    less the logarithm of (1 + gamma) / (1 - gamma). *)
Theorem C71_value : forall A t W (keras : list A -> list A -> W -> res ((A -> R) * W)) failure s1 s2 w g w',
  1 < rt_alpha t -> 0 < rt_bound t -> 0 < failure <= 2 ->
  (2 <= List.length s1)%nat -> (2 <= List.length s2)%nat ->
  keras (firstn (List.length s1 / 2) s1) (firstn (List.length s2 / 2) s2) w = Ok (g, w') ->
  let test1 := skipn (List.length s1 / 2) s1 in let test2 := skipn (List.length s2 / 2) s2 in
  let output a := rt_bound t * tanh (g a) in
  let n := INR (Nat.min (List.length test1) (List.length test2)) in
  let gamma := sqrt (Rmax (3 * exp (2 * (rt_alpha t - 1) * rt_bound t)) (2 * exp (2 * rt_alpha t * rt_bound t)) * ln (2 / failure) / n) in
  gamma < 1 ->
  renyi_estimate keras t s1 s2 failure w
  = Ok (Fin (rt_alpha t / (rt_alpha t - 1) * ln (rsum (fun a => exp ((rt_alpha t - 1) * output a)) test1 / INR (List.length test1))
             - ln (rsum (fun a => exp (rt_alpha t * output a)) test2 / INR (List.length test2))
             - ln ((1 + gamma) / (1 - gamma))), w').
Proof. exact renyi_value. Qed.
Print Assumptions C71_value.
Example C71_value_example :
  let t := mkRenyi 2 1 (1 / 10) in
  let n := INR (Nat.min (List.length (skipn (80 / 2) (repeat true 80))) (List.length (skipn (80 / 2) (repeat false 80)))) in
  sqrt (Rmax (3 * exp (2 * (rt_alpha t - 1) * rt_bound t)) (2 * exp (2 * rt_alpha t * rt_bound t)) * ln (2 / (1 / 10)) / n) < 1.
Proof. exact renyi_value_example. Qed.
(** The order is not validated for a pure guarantee; the claim fails without it. *)
Theorem C71_order_refuted :
  ~ (forall E c t W (keras : list (outcome E) -> list (outcome E) -> W -> res ((outcome E -> R) * W)) failure n1 n2 w,
      new_renyi c = Ok t -> valid E -> satisfies (rc_property c) E -> 0 < failure < 1 ->
      mean (law_P E) n1 (fun s1 => mean (law_Q E) n2 (fun s2 =>
        indicator (rejects (fun vw => renyi_reject t (fst vw)) (renyi_estimate keras t s1 s2 failure w)))) <= failure).
Proof. exact alpha_refuted. Qed.
Print Assumptions C71_order_refuted.

(** C72: whole audits of a private mechanism.  The datasets may be chosen, and the model trained,
    with a common state of any kind. *)
Theorem C72_hockey : forall (S D O A : Type) (om : list (O * R)) (m : D -> O -> A) (gen : option xr -> S -> D * D * S)
    (keras : list (A * bool) -> S -> res ((A -> R) * S)) np_tanh chebyshev h hc t eps delta c g,
  new_hockey hc = Ok t -> a_epsilon (hc_approximate hc) = Some eps -> a_delta (hc_approximate hc) = Some delta -> distribution om ->
  (runner_post c = NONE /\ (forall a, h a = a)) \/ (runner_post c = TANH /\ forall s, np_tanh s = Ok (map h s)) ->
  (forall last g, let '(d1, d2, _) := gen last g in dp_pair om (m d1) (m d2) eps delta /\ dp_pair om (m d2) (m d1) eps delta) ->
  0 < failure_probability c ->
  mean om (Z.to_nat (max_num_trials c) * (num_samples c + num_samples c)) (fun tape =>
    indicator (reports_violation
      (test_privacy (tape_generator gen) (tape_mechanism m) (tape_tester (hockey_estimate keras t))
         (hockey_reject t) (fun a b => xltb b a) np_tanh chebyshev c (g, tape))))
  <= IZR (Z.max 0 (max_num_trials c))
     * (2 * failure_probability c * exp (4 * sqrt (ln (1 / failure_probability c) / 2 / INR (num_samples c - num_samples c / 2)))).
Proof. exact @hockey_audit. Qed.
Print Assumptions C72_hockey.
Example C72_hockey_example :
  mean flip (Z.to_nat 5 * (200 + 200)) (fun tape =>
    indicator (reports_violation
      (test_privacy (tape_generator opposite) (tape_mechanism respond) (tape_tester (hockey_estimate counting quarter))
         (hockey_reject quarter) (fun a b => xltb b a) (fun s => Ok s) (fun s => Ok s) (mkRunner 5 (1/1000) 200 NONE) (0%nat, tape))))
  <= 5 * (2 * (1/1000) * exp (4 * sqrt (ln (1 / (1/1000)) / 2 / INR (200 - 200 / 2)))).
Proof. exact hockey_audit_example. Qed.
Theorem C72_renyi : forall (S D O A : Type) (om : list (O * R)) (m : D -> O -> A) (gen : option xr -> S -> D * D * S)
    (keras : list A -> list A -> S -> res ((A -> R) * S)) np_tanh chebyshev h rc t c g,
  new_renyi rc = Ok t -> 1 < rc_alpha rc -> distribution om ->
  (runner_post c = NONE /\ (forall a, h a = a)) \/ (runner_post c = TANH /\ forall s, np_tanh s = Ok (map h s)) ->
  (forall last g, let '(d1, d2, _) := gen last g in pair_satisfies om (rc_property rc) (m d1) (m d2)) ->
  0 < failure_probability c ->
  mean om (Z.to_nat (max_num_trials c) * (num_samples c + num_samples c)) (fun tape =>
    indicator (reports_violation
      (test_privacy (tape_generator gen) (tape_mechanism m) (tape_tester (renyi_estimate keras t))
         (renyi_reject t) (fun a b => xltb b a) np_tanh chebyshev c (g, tape))))
  <= IZR (Z.max 0 (max_num_trials c)) * (2 * failure_probability c).
Proof. exact @renyi_audit. Qed.
Print Assumptions C72_renyi.
Example C72_renyi_example :
  let t := mkRenyi 2 (Rmin (ln 3) (2 * 2 * (ln 3 * ln 3))) 1 in
  mean flip (Z.to_nat 5 * (200 + 200)) (fun tape =>
    indicator (reports_violation
      (test_privacy (tape_generator opposite) (tape_mechanism respond) (tape_tester (renyi_estimate freq_model t))
         (renyi_reject t) (fun a b => xltb b a) (fun s => Ok s) (fun s => Ok s) (mkRunner 5 (1/1000) 200 NONE) (0%nat, tape))))
  <= 5 * (2 * (1/1000)).
Proof. exact renyi_audit_example. Qed.
