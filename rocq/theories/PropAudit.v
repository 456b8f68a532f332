(** C53, C54, C60, C61: the privacy test runner and the histogram tester. *)
From Verif Require Import Base Exn TypesAudit ModelAudit SpecDP SpecAudit ProofAudit ProofHistEst ProofAuditTop.

(** C53: the run consists of successive trials, each told the estimate of the one before; it stops
    at the first estimate that is rejected and reports a violation, and otherwise makes
    max_num_trials trials and reports none; the estimates of all trials are reported. *)
Theorem C53_runner : forall (D Sm V W : Type) (generator : option V -> W -> res (D * D * W))
    (mechanism : D -> nat -> W -> res (Sm * W)) (estimate : Sm -> Sm -> R -> W -> res (V * W))
    (reject : V -> bool) (gtb : V -> V -> bool) (np_tanh chebyshev : Sm -> res Sm) c w r w',
  test_privacy generator mechanism estimate reject gtb np_tanh chebyshev c w = Ok (r, w') <->
  exists es,
    trials generator mechanism (match runner_post c with NONE => fun s => Ok s | TANH => np_tanh | CHEBYSHEV_POLYNOMIALS_D5 => chebyshev end)
      estimate gtb (failure_probability c) (num_samples c) None w es w'
    /\ estimates r = es /\
    ((exists front e, es = front ++ [e] /\ (Z.of_nat (List.length es) <= max_num_trials c)%Z
        /\ Forall (fun e => reject e = false) front /\ reject e = true
        /\ termination_reason r = FOUND_PRIVACY_VIOLATION /\ found r = Some (failure_probability c)
        /\ num_inspected_trials r = Z.of_nat (List.length es))
     \/ (Z.of_nat (List.length es) = Z.max 0 (max_num_trials c) /\ Forall (fun e => reject e = false) es
        /\ termination_reason r = TRIAL_LIMIT_REACHED /\ found r = None /\ num_inspected_trials r = max_num_trials c)).
Proof. exact @runner_final. Qed.
Print Assumptions C53_runner.
Example C53_example :
  test_privacy (D := nat) (Sm := nat) (V := R) (W := nat) count_generator (fun d n w => Ok (d, w))
    (fun s1 s2 f w => Ok (INR s1, w)) (fun v => Rleb 2 v) (fun a b => Rltb b a) (fun s => Ok s) (fun s => Ok s)
    (mkRunner 5 (1/10) 7 NONE) 0%nat
  = Ok (mkResults [1; 1 + 1] FOUND_PRIVACY_VIOLATION (Some (1/10)) 2, 2%nat).
Proof. exact runner_example. Qed.

(** C54: the estimate is the largest empirical advantage of a set less the documented correction,
    and is below that advantage. *)
Theorem C54_discrete : forall t s1 s2 failure v, estimate_lower_bound estimate_discrete t s1 s2 failure = Ok (Some v) ->
  exists S, (forall S', advantage (t_epsilon t) s1 s2 S' <= advantage (t_epsilon t) s1 s2 S)
    /\ v = advantage (t_epsilon t) s1 s2 S
        - correction (h_original (t_config t)) (t_epsilon t) (h_size (t_config t)) (Nat.min (List.length s1) (List.length s2)) failure
            (fun i => empirical s1 (fun a => (a =? Z.of_nat i)%Z)) (fun i => empirical s2 (fun a => (a =? Z.of_nat i)%Z))
    /\ v < advantage (t_epsilon t) s1 s2 S.
Proof. exact discrete_estimate. Qed.
Print Assumptions C54_discrete.
Example C54_discrete_example :
  exists v, estimate_lower_bound estimate_discrete rr_tester [0; 0; 1]%Z [1; 1; 1]%Z (1/10) = Ok (Some v).
Proof. exact estimate_example. Qed.

(** C54: the same for a histogram of real values, where the sets are unions of bins. *)
Theorem C54_continuous : forall t s1 s2 failure v (bin_of : R -> nat),
  estimate_lower_bound estimate_continuous t s1 s2 failure = Ok (Some v) ->
  (forall x, in_bin (t_config t) (bin_of x) x) ->
  exists S : nat -> bool,
    (forall S' : nat -> bool, advantage (t_epsilon t) s1 s2 (fun x => S' (bin_of x)) <= advantage (t_epsilon t) s1 s2 (fun x => S (bin_of x)))
    /\ v = advantage (t_epsilon t) s1 s2 (fun x => S (bin_of x))
        - correction (h_original (t_config t)) (t_epsilon t) (h_size (t_config t)) (Nat.min (List.length s1) (List.length s2)) failure
            (fun i => empirical s1 (fun x => (bin_of x =? i)%nat)) (fun i => empirical s2 (fun x => (bin_of x =? i)%nat))
    /\ v < advantage (t_epsilon t) s1 s2 (fun x => S (bin_of x)).
Proof. exact continuous_estimate. Qed.
Print Assumptions C54_continuous.
Example C54_continuous_example : forall c, (0 < h_size c)%nat -> h_min c <= h_max c -> exists bin_of, forall x, in_bin c (bin_of x) x.
Proof. exact bins_exist. Qed.

(** C54: samples that satisfy the guarantee themselves are never rejected. *)
Theorem C54_no_reject : forall t s1 s2 failure,
  (forall S, empirical s1 S <= exp (t_epsilon t) * empirical s2 S + t_delta t) ->
  rejects (reject_property t) (estimate_lower_bound estimate_discrete t s1 s2 failure) = false.
Proof. exact discrete_no_reject. Qed.
Print Assumptions C54_no_reject.
Theorem C54_no_reject_continuous : forall t s1 s2 failure,
  (forall S, empirical s1 S <= exp (t_epsilon t) * empirical s2 S + t_delta t) ->
  rejects (reject_property t) (estimate_lower_bound estimate_continuous t s1 s2 failure) = false.
Proof. exact continuous_no_reject_all. Qed.
Print Assumptions C54_no_reject_continuous.
Example C54_no_reject_example : forall S, empirical [0; 1]%Z S <= exp (t_epsilon rr_tester) * empirical [0; 0; 1]%Z S + t_delta rr_tester.
Proof. exact no_reject_example. Qed.

(** C60: the histogram tester rejects a pair of datasets on which the mechanism does satisfy the
    guarantee with probability at most half the failure probability; the samples are independent
    and their number is arbitrary. *)
Theorem C60_discrete : forall (O : Type) (om : list (O * R)) (m1 m2 : O -> Z) c t eps delta failure n1 n2,
  new_tester c = Ok t -> h_epsilon c = Some eps -> h_delta c = Some delta -> distribution om ->
  (forall o, (0 <= m1 o < Z.of_nat (h_size c))%Z /\ (0 <= m2 o < Z.of_nat (h_size c))%Z) ->
  dp_pair om m1 m2 eps delta -> 0 < failure -> (0 < n1)%nat -> (0 < n2)%nat ->
  mean om n1 (fun l1 => mean om n2 (fun l2 =>
    indicator (rejects (reject_property t) (estimate_lower_bound estimate_discrete t (map m1 l1) (map m2 l2) failure)))) <= failure / 2.
Proof. exact @tester_discrete. Qed.
Print Assumptions C60_discrete.
Example C60_discrete_example : mean coin 100 (fun l1 => mean coin 50 (fun l2 =>
    indicator (rejects (reject_property rr_tester) (estimate_lower_bound estimate_discrete rr_tester (map (response 0) l1) (map (response 1) l2) (1/10))))) <= / 20.
Proof. exact rr_test_example. Qed.
Theorem C60_continuous : forall (O : Type) (om : list (O * R)) (m1 m2 : O -> R) c t eps delta failure n1 n2,
  new_tester c = Ok t -> h_epsilon c = Some eps -> h_delta c = Some delta -> distribution om ->
  dp_pair om m1 m2 eps delta -> 0 < failure -> (0 < n1)%nat -> (0 < n2)%nat ->
  mean om n1 (fun l1 => mean om n2 (fun l2 =>
    indicator (rejects (reject_property t) (estimate_lower_bound estimate_continuous t (map m1 l1) (map m2 l2) failure)))) <= failure / 2.
Proof. exact @tester_continuous. Qed.
Print Assumptions C60_continuous.
Example C60_continuous_example : new_tester rr_config = Ok rr_tester /\ distribution coin
  /\ dp_pair coin (fun o => IZR (response 0 o)) (fun o => IZR (response 1 o)) (ln 3) 0.
Proof. exact continuous_example. Qed.

(** C61: an audit of a private mechanism reports a violation with probability at most
    max_num_trials times half the failure probability, however the datasets are chosen. *)
Theorem C61_discrete : forall (G D O : Type) (om : list (O * R)) (m : D -> O -> Z) (gen : option (option R) -> G -> D * D * G)
    np_tanh chebyshev h hc t eps delta c g,
  new_tester hc = Ok t -> h_epsilon hc = Some eps -> h_delta hc = Some delta -> distribution om ->
  (runner_post c = NONE /\ (forall a, h a = a)) \/ (runner_post c = TANH /\ forall s, np_tanh s = Ok (map h s)) ->
  (forall d o, (0 <= h (m d o) < Z.of_nat (h_size hc))%Z) ->
  (forall last g, let '(d1, d2, _) := gen last g in dp_pair om (m d1) (m d2) eps delta /\ dp_pair om (m d2) (m d1) eps delta) ->
  0 < failure_probability c -> (0 < num_samples c)%nat ->
  mean om (Z.to_nat (max_num_trials c) * (num_samples c + num_samples c)) (fun tape =>
    indicator (reports_violation
      (test_privacy (tape_generator gen) (tape_mechanism m)
         (fun s1 s2 f w => let? v := estimate_lower_bound estimate_discrete t s1 s2 f in Ok (v, w))
         (reject_property t) float_gtb np_tanh chebyshev c (g, tape))))
  <= IZR (Z.max 0 (max_num_trials c)) * (failure_probability c / 2).
Proof. exact @audit_discrete. Qed.
Print Assumptions C61_discrete.
Example C61_discrete_example : mean coin (5 * (100 + 100)) (fun tape =>
    indicator (reports_violation
      (test_privacy (tape_generator alternate) (tape_mechanism response)
         (fun s1 s2 f w => let? v := estimate_lower_bound estimate_discrete rr_tester s1 s2 f in Ok (v, w))
         (reject_property rr_tester) float_gtb (fun s => Ok s) (fun s => Ok s) (mkRunner 5 (1/10) 100 NONE) (0%Z, tape))))
  <= / 4.
Proof. exact rr_audit_example. Qed.
Theorem C61_continuous : forall (G D O : Type) (om : list (O * R)) (m : D -> O -> R) (gen : option (option R) -> G -> D * D * G)
    np_tanh chebyshev h hc t eps delta c g,
  new_tester hc = Ok t -> h_epsilon hc = Some eps -> h_delta hc = Some delta -> distribution om ->
  (runner_post c = NONE /\ (forall a, h a = a)) \/ (runner_post c = TANH /\ forall s, np_tanh s = Ok (map h s)) ->
  (0 < h_size hc)%nat -> h_min hc <= h_max hc ->
  (forall last g, let '(d1, d2, _) := gen last g in dp_pair om (m d1) (m d2) eps delta /\ dp_pair om (m d2) (m d1) eps delta) ->
  0 < failure_probability c -> (0 < num_samples c)%nat ->
  mean om (Z.to_nat (max_num_trials c) * (num_samples c + num_samples c)) (fun tape =>
    indicator (reports_violation
      (test_privacy (tape_generator gen) (tape_mechanism m)
         (fun s1 s2 f w => let? v := estimate_lower_bound estimate_continuous t s1 s2 f in Ok (v, w))
         (reject_property t) float_gtb np_tanh chebyshev c (g, tape))))
  <= IZR (Z.max 0 (max_num_trials c)) * (failure_probability c / 2).
Proof. exact @audit_continuous. Qed.
Print Assumptions C61_continuous.
Example C61_continuous_example : mean coin (5 * (100 + 100)) (fun tape =>
    indicator (reports_violation
      (test_privacy (tape_generator alternate) (tape_mechanism response_real)
         (fun s1 s2 f w => let? v := estimate_lower_bound estimate_continuous rr_tester s1 s2 f in Ok (v, w))
         (reject_property rr_tester) float_gtb (fun s => Ok s) (fun s => Ok s) (mkRunner 5 (1/10) 100 NONE) (0%Z, tape))))
  <= / 4.
Proof. exact rr_audit_real. Qed.
