(** Data of the model of the divergence testers (dp_auditorium). *)
From Verif Require Import Base XReal.

(** configs/property_tester_config.py 22-43, TrainingConfig; [verbose], which only affects what is
    printed, is omitted.  Any field may be None. *)
Record training_config := mkTraining {
  training_epochs : option Z; batch_size : option Z; learning_rate : option R; output_bound : option R }.
(** configs/privacy_property.py 21-46: PureDp, RenyiDp and ApproximateDp with fields that may be
    None. *)
Record pure_dp := mkPure { p_epsilon : option R }.
Record renyi_dp := mkRenyiDp { r_alpha : option R; r_epsilon : option R }.
Record approximate_dp := mkApprox { a_epsilon : option R; a_delta : option R }.
(** privacy_property.py 49-60, PrivacyProperty. *)
Record privacy_property := mkProperty {
  prop_pure : option pure_dp; prop_renyi : option renyi_dp; prop_approximate : option approximate_dp }.
(** property_tester_config.py 46-59, RenyiPropertyTesterConfig. *)
Record renyi_config := mkRenyiConfig { rc_alpha : R; rc_training : training_config; rc_property : privacy_property }.
(** property_tester_config.py 63-77, HockeyStickPropertyTesterConfig; the batch size of the
    evaluation, which does not change the accuracy, is omitted. *)
Record hockey_config := mkHockeyConfig { hc_training : training_config; hc_approximate : approximate_dp }.
(** property_tester_config.py 104-126, Kernel and MMDPropertyTesterConfig. *)
Inductive kernel_kind := KERNEL_UNSPECIFIED | KERNEL_RBF | KERNEL_LAPLACIAN.
Record mmd_config := mkMmdConfig { mc_kernel : kernel_kind; mc_bandwidth : R; mc_approximate : approximate_dp }.

(** Testers that were constructed. *)
Record hockey_tester := mkHockey { hs_epsilon : R; hs_delta : R; hs_bound : R }.
Record renyi_tester := mkRenyi { rt_alpha : R; rt_threshold : R; rt_bound : R }.
Record mmd_tester := mkMmd { mt_kernel : kernel_kind; mt_bandwidth : R; mt_epsilon : R; mt_delta : R }.
