(** Data of the model of the privacy test runner and the histogram tester (dp_auditorium). *)
From Verif Require Import Base.

(** configs/privacy_test_runner_config.py 33-41, PostProcessing. *)
Inductive post_processing := NONE | TANH | CHEBYSHEV_POLYNOMIALS_D5.
(** privacy_test_runner_config.py 44-63, PrivacyTestRunnerConfig; [property_tester], which is only
    copied to the results, is omitted. *)
Record runner_config := mkRunner {
  max_num_trials : Z; failure_probability : R; num_samples : nat; runner_post : post_processing }.
(** privacy_test_runner_config.py 66-77, TerminationReason. *)
Inductive termination := UNKNOWN | TRIAL_LIMIT_REACHED | FOUND_PRIVACY_VIOLATION.
(** privacy_test_runner_config.py 91-124, PrivacyTestRunnerResults: the fields that depend on the
    run.  [found] holds the failure probability recorded with a violation. *)
Record results (V : Type) := mkResults {
  estimates : list V; termination_reason : termination; found : option R; num_inspected_trials : Z }.
Arguments mkResults {V}. Arguments estimates {V}. Arguments termination_reason {V}.
Arguments found {V}. Arguments num_inspected_trials {V}.

(** configs/property_tester_config.py 80-101, HistogramPropertyTesterConfig; approximate_dp is
    given by its two fields (privacy_property.py 40-45), either of which may be None. *)
Record hist_config := mkHist {
  h_size : nat; h_min : R; h_max : R; h_epsilon : option R; h_delta : option R; h_original : bool }.
(** A tester that was constructed. *)
Record hist_tester := mkTester { t_config : hist_config; t_epsilon : R; t_delta : R }.
