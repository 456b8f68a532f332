(** The audited mean mechanism, its standard configurations, and the budget of a gradient step. *)
From Coq Require Import String.
From Verif Require Import Base Exn XReal TypesMean ModelMean SpecDP SpecMech SpecRenyi SpecRun SpecMean ProofMeanPriv ProofMeanLaw ProofMeanBad ProofMeanOut ProofMeanEx.
Local Open Scope R_scope.

(** C74: every sample is the sum of the clipped values divided by the (noisy) count, plus noise whose
    scale is inversely proportional to the (noisy) count but at least 10^-12. *)
Theorem C74_output : forall cn vn c data m, 0 < mean_epsilon c -> 0 <= mean_delta c <= 1 -> data <> [] ->
  (forall i, (i < m)%nat -> INR (List.length data) + 1 / epsilon_share c * cn i <> 0) ->
  mean_call cn vn c data m = Ok (map (fun i =>
    let k := INR (List.length data) + 1 / epsilon_share c * cn i in
    Fin (mean_given c data k + scale_given c data k * vn i)) (seq 0 m)).
Proof. exact mean_output. Qed.
Print Assumptions C74_output.
Example C74_output_example : mean_call (fun _ => 0) (fun i => match i with O => 1 | _ => -1 end) (mkMean 1 0 true true 1 0) [1/2; 3; -1; 1/2] 2 = Ok [Fin 1; Fin 0].
Proof. exact mean_example. Qed.

(** C74: an epsilon that is not positive raises; an empty dataset with an exact count gives NaN. *)
Theorem C74_raises : forall cn vn c data m, mean_epsilon c <= 0 ->
  mean_call cn vn c data m = Err (if Reqb (mean_epsilon c) 0 then ZeroDivisionError else ValueError).
Proof. exact mean_raises. Qed.
Print Assumptions C74_raises.
Theorem C74_empty : forall cn vn c m, 0 < mean_epsilon c -> noised_mean c = false -> mean_call cn vn c [] m = Ok (map (fun _ => NaN) (seq 0 m)).
Proof. exact mean_empty. Qed.
Print Assumptions C74_empty.
(** C74: the configurations by name. *)
Theorem C74_names : forall e delta,
  default_mean_config "private_mean" e delta = Ok (mkMean e delta true true 1 0)
  /\ default_mean_config "non_private_mean_v1" e delta = Ok (mkMean e delta false false 1 0)
  /\ default_mean_config "non_private_mean_v2" e delta = Ok (mkMean e delta false true 1 0)
  /\ (forall name, ~ In name ["private_mean"; "non_private_mean_v1"; "non_private_mean_v2"]%string -> default_mean_config name e delta = Err AttributeError).
Proof. exact mean_names. Qed.
Print Assumptions C74_names.

(** C74: the output has a distribution. *)
Theorem C74_law : forall F c data, noise_of (mean_delta c) F -> 0 < mean_epsilon c -> exists P, mean_law F c data P.
Proof. exact mean_law_exists. Qed.
Print Assumptions C74_law.

(** C74: with an exact count, the output is (epsilon, delta)-differentially private if a record is
    replaced; for delta > 0, if epsilon is at most 1. *)
Theorem C74_exact_count_partial : forall F c d d' P P' cuts, noise_of (mean_delta c) F -> 0 < mean_epsilon c -> 0 <= mean_delta c <= 1 ->
  (0 < mean_delta c -> mean_epsilon c <= 1) -> noised_mean c = false -> noised_scale c = false -> one_replaced d d' ->
  mean_law F c d P -> mean_law F c d' P' -> StronglySorted Rlt cuts ->
  valid (observe P P' cuts) /\ dp_both (observe P P' cuts) (mean_epsilon c) (mean_delta c).
Proof. exact mean_exact. Qed.
Print Assumptions C74_exact_count_partial.
(** C74: with a noisy count, it is so up to half the probability exp (- n epsilon / 2) that
    bounds the chance of a noisy count that is not positive; for delta > 0, if epsilon is at most 2. *)
Theorem C74_noisy_count_partial : forall F c d d' P P' cuts, noise_of (mean_delta c) F -> 0 < mean_epsilon c -> 0 <= mean_delta c <= 1 ->
  (0 < mean_delta c -> mean_epsilon c <= 2) -> noised_mean c = true -> noised_scale c = true ->
  mean_law F c d P -> mean_law F c d' P' -> StronglySorted Rlt cuts ->
  let delta := mean_delta c + exp (- (INR (List.length d) * mean_epsilon c / 2)) / 2 in
  valid (observe P P' cuts)
  /\ (one_replaced d d' -> dp_both (observe P P' cuts) (mean_epsilon c / 2) delta)
  /\ (one_added d d' -> mean_min c <= 0 <= mean_max c -> dp_both (observe P P' cuts) (mean_epsilon c) delta).
Proof. exact mean_noised. Qed.
Print Assumptions C74_noisy_count_partial.
(** Three records, pure and approximate. *)
Example C74_private_example : exists F P P' Q Q', let c := mkMean 1 0 true true 1 0 in let c' := mkMean 1 (1/100) false false 1 0 in
  mean_law (laplace_law 1) c [1; 0; 1/2] P /\ mean_law (laplace_law 1) c [1; 1; 1/2] P'
  /\ noise_of (1/100) F /\ mean_law F c' [1; 0; 1/2] Q /\ mean_law F c' [1; 1; 1/2] Q'
  /\ dp_both (observe P P' [0; 1]) (1/2) (0 + exp (- (3 * 1 / 2)) / 2) /\ dp_both (observe Q Q' [0; 1]) 1 (1/100).
Proof. exact mean_private_example. Qed.

(** C74: the excess is real.  "private_mean" with a small dataset is not (epsilon, 1/4)-differentially
    private if a record is replaced, nor is "non_private_mean_v2". *)
Theorem C74_private_mean_refuted : forall name e m c P P', (name = "private_mean" \/ name = "non_private_mean_v2")%string -> default_mean_config name e 0 = Ok c ->
  1 / 1000 <= e -> INR (S m) * e <= 1 -> mean_law (laplace_law 1) c (0 :: repeat 0 m) P -> mean_law (laplace_law 1) c (1 :: repeat 0 m) P' ->
  exists cuts, StronglySorted Rlt cuts /\ ~ dp (observe P P' cuts) e (1 / 4).
Proof. exact noised_refuted. Qed.
Print Assumptions C74_private_mean_refuted.
Example C74_refuted_example : exists c P P', default_mean_config "private_mean" (1/10) 0 = Ok c /\ INR (S 9) * (1/10) <= 1
  /\ mean_law (laplace_law 1) c (0 :: repeat 0 9) P /\ mean_law (laplace_law 1) c (1 :: repeat 0 9) P'.
Proof. exact mean_refuted_example. Qed.
(** C74: with an exact count, adding a record is not private for any epsilon. *)
Theorem C74_added_refuted : forall e c e' P P', 0 < e <= 10 ^ 11 -> default_mean_config "non_private_mean_v1" e 0 = Ok c ->
  mean_law (laplace_law 1) c [0] P -> mean_law (laplace_law 1) c [0; 0] P' -> exists cuts, StronglySorted Rlt cuts /\ ~ dp (observe P P' cuts) e' 0.
Proof. exact added_refuted. Qed.
Print Assumptions C74_added_refuted.
(** C74: the normal noise does not give (epsilon, delta)-differential privacy for large epsilon. *)
Theorem C74_gaussian_refuted : forall delta, 0 < delta < 1 -> exists e0, 0 < e0 /\ forall Phi e lo hi P P', normal_cdf Phi -> e0 <= e <= 10 ^ 11 * (hi - lo) ->
  let c := mkMean e delta false false hi lo in mean_law Phi c [lo] P -> mean_law Phi c [hi] P' ->
  exists cuts, StronglySorted Rlt cuts /\ ~ dp (observe P P' cuts) e delta.
Proof. exact gaussian_refuted. Qed.
Print Assumptions C74_gaussian_refuted.

(** C75: four times the budget bounds the Renyi divergences of a noisy step of gradient descent if a
    record is replaced, the budget itself does if a record is left out. *)
Theorem C75_budget : forall Phi nm clip a E e, normal_cdf Phi -> 0 < nm -> 0 < clip -> 1 < a -> wrong_one_step_gd_budget nm a = Ok e ->
  (noisy_step Phi 2 nm clip E -> rdp_bounded E (Fin a) (Fin (4 * e))) /\ (noisy_step Phi 1 nm clip E -> rdp_bounded E (Fin a) (Fin e)).
Proof. exact step_four. Qed.
Print Assumptions C75_budget.
(** C75: the budget is too small if a record is replaced. *)
Theorem C75_wrong : forall Phi nm clip a e, normal_cdf Phi -> 0 < nm -> 0 < clip -> 1 < a -> ln 2 < (a - 1) * (4 - a) / (2 * nm ^ 2) ->
  wrong_one_step_gd_budget nm a = Ok e -> exists E, noisy_step Phi 2 nm clip E /\ ~ renyi_bounded E (Fin a) (Fin e).
Proof. exact step_wrong. Qed.
Print Assumptions C75_wrong.
Example C75_example : wrong_one_step_gd_budget (1/2) 2 = Ok 4 /\ ln 2 < (2 - 1) * (4 - 2) / (2 * (1/2) ^ 2) /\ wrong_one_step_gd_budget 0 2 = Err ZeroDivisionError.
Proof. exact budget_example. Qed.
