(** C73: the tester of the maximum mean discrepancy. *)
From Verif Require Import Base Exn XReal TypesAudit SpecDP SpecAudit SpecRenyi ModelAudit TypesTesters ModelTesters SpecTesters
  ProofMmd ProofMmdRun ProofMmdPower ProofTesterEx.

(** C73: an (epsilon, delta)-private mechanism is rejected with probability at most twice the
    failure probability, for any numbers of samples.  [m] turns an outcome into the vector that the
    kernel is applied to.  Missing: the documented bound is the failure probability itself; the code
    takes the better of two bounds, each of which uses all of it. *)
Theorem C73_mmd_partial : forall E (m : outcome E -> list R) c t eps delta failure n1 n2,
  new_mmd c = Ok t -> a_epsilon (mc_approximate c) = Some eps -> a_delta (mc_approximate c) = Some delta -> 0 <= mc_bandwidth c ->
  valid E -> dp_both E eps delta -> 0 < failure ->
  mean (law_P E) n1 (fun s1 => mean (law_Q E) n2 (fun s2 =>
    indicator (rejects (mmd_reject t) (mmd_estimate t (map m s1) (map m s2) failure)))) <= 2 * failure.
Proof. exact mmd_sound. Qed.
Print Assumptions C73_mmd_partial.
Example C73_example : forall n1 n2,
  mean (law_P rr) n1 (fun s1 => mean (law_Q rr) n2 (fun s2 =>
    indicator (rejects (mmd_reject mmd_ex) (mmd_estimate mmd_ex (map as_vector s1) (map as_vector s2) (1 / 20))))) <= 1 / 10.
Proof. exact mmd_example. Qed.
(** The estimate is a lower bound on any delta for which the mechanism is private. *)
Theorem C73_lower_bound_partial : forall E (m : outcome E -> list R) c t eps delta failure n1 n2,
  new_mmd c = Ok t -> a_epsilon (mc_approximate c) = Some eps -> 0 <= mc_bandwidth c ->
  valid E -> 0 <= delta -> dp_both E eps delta -> 0 < failure ->
  mean (law_P E) n1 (fun s1 => mean (law_Q E) n2 (fun s2 =>
    indicator (rejects (fun v => xltb (Fin delta) v) (mmd_estimate t (map m s1) (map m s2) failure)))) <= 2 * failure.
Proof. exact mmd_lower. Qed.
Print Assumptions C73_lower_bound_partial.
(** A negative bandwidth is accepted, and the bound fails. *)
Theorem C73_bandwidth_refuted :
  ~ (forall E (m : outcome E -> list R) c t eps delta failure n1 n2,
      new_mmd c = Ok t -> a_epsilon (mc_approximate c) = Some eps -> a_delta (mc_approximate c) = Some delta ->
      valid E -> dp_both E eps delta -> 0 < failure ->
      mean (law_P E) n1 (fun s1 => mean (law_Q E) n2 (fun s2 =>
        indicator (rejects (mmd_reject t) (mmd_estimate t (map m s1) (map m s2) failure)))) <= 2 * failure).
Proof. exact mmd_bandwidth_refuted. Qed.
Print Assumptions C73_bandwidth_refuted.
(** Exactly when it rejects: x and y are the samples, the i-th of a first half is paired with the
    i-th of its second half. *)
Theorem C73_decision : forall c t eps delta (s1 s2 : list (list R)) failure,
  new_mmd c = Ok t -> a_epsilon (mc_approximate c) = Some eps -> a_delta (mc_approximate c) = Some delta -> 0 < failure <= 1 ->
  let n1 := List.length s1 in let n2 := List.length s2 in let n := Nat.min (n1 / 2) (n2 / 2) in (2 <= n)%nat ->
  let x i := nth i s1 [] in let y i := nth i s2 [] in
  let k u v := exp (- mc_bandwidth c * match mc_kernel c with
    | KERNEL_LAPLACIAN => rsum (fun p => Rabs (fst p - snd p)) (combine u v)
    | _ => rsum (fun p => (fst p - snd p) ^ 2) (combine u v) end) in
  let h i := k (x i) (x (n1 / 2 + i)%nat) - 2 * k (x i) (y i) + k (y i) (y (n2 / 2 + i)%nat) in
  let average f := rsum f (seq 0 n) / INR n in
  let variance := Rmax 0 (average (fun i => h i ^ 2) - average h ^ 2) in
  let tolerance := Rmin (sqrt (8 * ln (1 / failure) / INR n))
                        (sqrt (2 * variance * ln (2 / failure) / INR n) + 28 * ln (2 / failure) / (3 * (INR n - 1))) in
  rejects (mmd_reject t) (mmd_estimate t s1 s2 failure) = true
  <-> (exp eps - 1) ^ 2 + 2 * (exp eps - exp (- eps)) * delta + (1 + exp (- eps)) * delta ^ 2 < average h - tolerance.
Proof. exact mmd_decision. Qed.
Print Assumptions C73_decision.
Example C73_decision_example : rejects (mmd_reject tight) (mmd_estimate tight (repeat [0] 400) (repeat [5] 400) (1 / 20)) = true.
Proof. exact tight_example. Qed.
(** With an epsilon of at least ln (1 + sqrt 2), about 0.88, it never rejects anything. *)
Theorem C73_never_rejects : forall c t eps (s1 s2 : list (list R)) failure,
  new_mmd c = Ok t -> a_epsilon (mc_approximate c) = Some eps -> 0 <= mc_bandwidth c -> 0 < failure < 1 ->
  ln (1 + sqrt 2) <= eps -> rejects (mmd_reject t) (mmd_estimate t s1 s2 failure) = false.
Proof. exact mmd_powerless. Qed.
Print Assumptions C73_never_rejects.
(** Whole audits. *)
Theorem C73_audit_partial : forall (S D O : Type) (om : list (O * R)) (m : D -> O -> list R) (gen : option xr -> S -> D * D * S) np_tanh chebyshev h mc t c g,
  new_mmd mc = Ok t -> 0 <= mc_bandwidth mc -> distribution om ->
  (runner_post c = NONE /\ (forall a, h a = a)) \/ (runner_post c = TANH /\ forall s, np_tanh s = Ok (map h s)) ->
  (forall last g, let '(d1, d2, _) := gen last g in pair_satisfies om (mkProperty None None (Some (mc_approximate mc))) (m d1) (m d2)) ->
  0 < failure_probability c ->
  mean om (Z.to_nat (max_num_trials c) * (num_samples c + num_samples c)) (fun tape =>
    indicator (reports_violation
      (test_privacy (tape_generator gen) (tape_mechanism m) (tape_tester (stateless (mmd_estimate t)))
         (mmd_reject t) (fun a b => xltb b a) np_tanh chebyshev c (g, tape))))
  <= IZR (Z.max 0 (max_num_trials c)) * (4 * failure_probability c).
Proof. exact @mmd_audit. Qed.
Print Assumptions C73_audit_partial.
Example C73_audit_example :
  mean flip (Z.to_nat 5 * (200 + 200)) (fun tape =>
    indicator (reports_violation
      (test_privacy (tape_generator opposite) (tape_mechanism respond_vector) (tape_tester (stateless (mmd_estimate mmd_ex)))
         (mmd_reject mmd_ex) (fun a b => xltb b a) (fun s => Ok s) (fun s => Ok s) (mkRunner 5 (1/1000) 200 NONE) (0%nat, tape))))
  <= 5 * (4 * (1/1000)).
Proof. exact mmd_audit_example. Qed.
