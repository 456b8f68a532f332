(** Two ways in which the hockey-stick tester rejects a mechanism that ignores its input. *)
From Verif Require Import Base Exn XReal TypesAudit SpecDP SpecAudit ModelAudit TypesTesters ModelTesters SpecTesters ProofHoeffding ProofTailBounds ProofTailSums ProofTrained ProofHockey.
Local Arguments Rltb : simpl never.
Local Arguments Rleb : simpl never.
Local Arguments Reqb : simpl never.

(** A mechanism with one outcome. *)
Definition blind : exper := {| outcome := unit; outs := [tt]; prP := fun _ => 1; prQ := fun _ => 1 |}.
Lemma blind_valid : valid blind.
Proof. repeat split; cbn; lra. Qed.
Lemma blind_dp eps delta : 0 <= eps -> 0 <= delta -> dp blind eps delta.
Proof.
  intros He Hd S. unfold ProbP, ProbQ. cbn [outs prP prQ blind filter]. assert (1 <= exp eps) by (rewrite <- exp_0; apply exp_le; lra).
  destruct (S tt); cbn [rsum]; lra.
Qed.
(** "Training" that returns a constant. *)
Definition constant (c : R) (data : list (outcome blind * bool)) (w : unit) : res ((outcome blind -> R) * unit) := Ok (fun _ => c, w).
Definition quarter_config : hockey_config :=
  mkHockeyConfig (mkTraining (Some 1%Z) (Some 1%Z) (Some 1) (Some 1)) (mkApprox (Some (ln 3)) (Some 0)).
Definition quarter : hockey_tester := mkHockey (ln 3) 0 1.
Lemma ln3_pos : 0 < ln 3.
Proof. rewrite <- ln_1. apply ln_increasing; lra. Qed.
Lemma quarter_ok : new_hockey quarter_config = Ok quarter.
Proof.
  pose proof ln3_pos. unfold new_hockey, quarter_config, validate_approximate, validate_epsilon, validate_training, not_positive, quarter.
  cbn [hc_approximate hc_training a_epsilon a_delta bind learning_rate training_epochs batch_size output_bound option_map].
  rewrite !Reqb_false, !Rleb_false, Rltb_false by lra. reflexivity.
Qed.

(** The value of the estimate when the trained model is constant. *)
Lemma constant_estimate c s1 s2 failure m1 m2 (i1 i2 : nat) (right : R) :
  List.length s1 = (2 * m1)%nat -> List.length s2 = (2 * m2)%nat -> (m1 <> 0)%nat -> (m2 <> 0)%nat ->
  INR i1 <= INR m1 / 4 < INR i1 + 1 -> INR i2 <= INR m2 / 4 < INR i2 + 1 ->
  right = (if Rltb 0 c then INR (m2 - i2) else INR i1) ->
  0 < failure <= 1 ->
  hockey_estimate (constant c) quarter s1 s2 failure tt
  = Ok (Fin ((right / INR (i1 + (m2 - i2)) - sqrt (ln (1 / failure) / 2 / INR (Nat.min m1 m2))) * 4 - 3), tt).
Proof.
  intros L1 L2 N1 N2 I1 I2 Er Hf. unfold hockey_estimate, divergence_estimate.
  assert (D : forall m, (2 * m / 2 = m)%nat) by (intros m; rewrite Nat.mul_comm; apply Nat.div_mul; lia).
  assert (Sp : forall (s : list (outcome blind)) m, List.length s = (2 * m)%nat -> split_samples s = Ok (firstn m s, skipn m s)).
  { intros s m L. unfold split_samples. rewrite L, D. destruct (Nat.eqb_spec (2 * m) 1); [lia|reflexivity]. }
  rewrite (Sp s1 m1 L1), (Sp s2 m2 L2). cbn [bind]. unfold hockey_fit, constant. cbn [bind].
  assert (LT : forall (s : list (outcome blind)) m, List.length s = (2 * m)%nat -> List.length (skipn m s) = m) by (intros s m L; rewrite skipn_length, L; lia).
  unfold hockey_compute, model_inputs. rewrite (LT s1 m1 L1), (LT s2 m2 L2).
  assert (C : cutoff (hs_epsilon quarter) = / 4) by (unfold cutoff, quarter; cbn [hs_epsilon]; rewrite exp_ln by lra; field).
  assert (F : forall i m, INR i <= INR m / 4 < INR i + 1 -> Z.to_nat (Rfloor (cutoff (hs_epsilon quarter) * INR m)) = i).
  { intros i m H. rewrite C. replace (Rfloor (/ 4 * INR m)) with (Z.of_nat i); [apply Nat2Z.id|]. symmetry. apply Rfloor_unique.
    rewrite <- INR_IZR_INZ. lra. }
  rewrite (F i1 m1 I1), (F i2 m2 I2).
  assert (B1 : (i1 <= m1)%nat) by (apply INR_le; pose proof (pos_INR m1); lra).
  assert (B2 : (i2 < m2)%nat) by (apply INR_lt; assert (0 < INR m2) by (apply lt_0_INR; lia); lra).
  set (ins := _ ++ _).
  assert (Li : List.length ins = (i1 + (m2 - i2))%nat).
  { unfold ins. rewrite app_length, !map_length, firstn_length, (skipn_length i2), (LT s1 m1 L1), (LT s2 m2 L2). lia. }
  assert (Hs : rsum (fun i : outcome blind * bool => if Bool.eqb (Rltb 0 c) (snd i) then 1 else 0) ins = right).
  { unfold ins. rewrite rsum_app, !rsum_map. cbn [snd].
    rewrite (rsum_ext _ (fun _ => if Rltb 0 c then 0 else 1) (firstn i1 _)) by (intros; destruct (Rltb 0 c); reflexivity).
    rewrite (rsum_ext _ (fun _ => if Rltb 0 c then 1 else 0) (skipn i2 _)) by (intros; destruct (Rltb 0 c); reflexivity).
    rewrite !rsum_const, firstn_length, (skipn_length i2), (LT s1 m1 L1), (LT s2 m2 L2), Er.
    replace (Nat.min i1 m1) with i1 by lia. destruct (Rltb 0 c); ring. }
  assert (Ba : binary_accuracy (fun _ : outcome blind => c) ins = Ok (right / INR (i1 + (m2 - i2)))).
  { destruct ins as [|i ins]; [cbn [List.length] in Li; lia|]. unfold binary_accuracy. rewrite Li, Hs. reflexivity. }
  rewrite Ba. cbn [bind].
  unfold confidence_bound, py_div. rewrite Reqb_false by lra. cbn [bind].
  replace (1 / (1 - (1 - failure))) with (1 / failure) by (f_equal; ring).
  assert (Hq : 0 < 1 / failure) by (apply Rmult_lt_0_compat; [lra|apply Rinv_0_lt_compat; lra]).
  assert (HN : 0 < INR (Nat.min m1 m2)) by (apply lt_0_INR; lia).
  assert (Hl : 0 <= ln (1 / failure)).
  { rewrite <- ln_1. apply ln_le_mono; [lra|]. apply (Rmult_le_reg_r failure); [lra|]. unfold Rdiv. rewrite Rmult_assoc, Rinv_l by lra. lra. }
  cbn [x_log]. rewrite Rltb_true by exact Hq. cbn [xdiv]. rewrite Reqb_false by lra. cbn [xdiv]. rewrite Reqb_false by lra. cbn [x_sqrt].
  rewrite Rltb_false by (apply Rmult_le_pos; [lra|apply Rlt_le, Rinv_0_lt_compat; exact HN]).
  cbn [quarter hs_epsilon hs_bound xmul xsub xneg xadd bind]. rewrite exp_ln by lra. do 3 f_equal. ring.
Qed.

(** Every run rejects. *)
Lemma certain {O1 O2} (om1 : list (O1 * R)) (om2 : list (O2 * R)) n1 n2 (b : list O1 -> list O2 -> bool) : distribution om1 -> distribution om2 ->
  (forall s1 s2, List.length s1 = n1 -> List.length s2 = n2 -> b s1 s2 = true) ->
  mean om1 n1 (fun s1 => mean om2 n2 (fun s2 => indicator (b s1 s2))) = 1.
Proof.
  intros H1 H2 H. rewrite <- (mean_const om1 H1 n1 1). apply mean_ext. intros s1 L1 _. rewrite <- (mean_const om2 H2 n2 1). apply mean_ext.
  intros s2 L2 _. rewrite H by assumption. reflexivity.
Qed.

(** Two samples of each, failure probability 0.95. *)
Lemma rounding_certain :
  mean (law_P blind) 2 (fun s1 => mean (law_Q blind) 2 (fun s2 =>
    indicator (rejects (fun vw => hockey_reject quarter (fst vw)) (hockey_estimate (constant 1) quarter s1 s2 (95 / 100) tt)))) = 1.
Proof.
  apply certain; [apply (law_P_ok _ blind_valid)|apply (law_Q_ok _ blind_valid)|]. intros s1 s2 L1 L2.
  rewrite (constant_estimate 1 s1 s2 (95 / 100) 1 1 0 0 1); try assumption; try (cbn [INR]; lra); try lia.
  2:{ rewrite Rltb_true by lra. cbn [INR Nat.sub]. reflexivity. }
  cbn [rejects fst]. unfold hockey_reject, exceeds. cbn [xltb quarter hs_delta]. apply Rltb_true. cbn [Nat.min Nat.sub Nat.add INR].
  assert (Hl : ln (1 / (95 / 100)) <= 1 / (95 / 100) - 1).
  { pose proof (exp_ineq1_le (1 / (95 / 100) - 1)) as K. apply (Rle_trans _ (ln (exp (1 / (95 / 100) - 1)))); [|rewrite ln_exp; lra].
    apply ln_le_mono; lra. }
  assert (sqrt (ln (1 / (95 / 100)) / 2 / 1) <= 1 / 5); [|lra].
  apply Rle_trans with (sqrt (1 / 5 * (1 / 5))); [apply sqrt_le_1_alt; lra|]. rewrite sqrt_square; lra.
Qed.

(** Eight thousand samples of the first and two hundred of the second, failure probability 0.05. *)
Lemma unequal_certain :
  mean (law_P blind) (2 * Z.to_nat 4000) (fun s1 => mean (law_Q blind) (2 * Z.to_nat 100) (fun s2 =>
    indicator (rejects (fun vw => hockey_reject quarter (fst vw)) (hockey_estimate (constant 0) quarter s1 s2 (5 / 100) tt)))) = 1.
Proof.
  apply certain; [apply (law_P_ok _ blind_valid)|apply (law_Q_ok _ blind_valid)|]. intros s1 s2 L1 L2.
  assert (EI : forall z, (0 <= z)%Z -> INR (Z.to_nat z) = IZR z) by (intros z Hz; rewrite INR_IZR_INZ, Z2Nat.id by exact Hz; reflexivity).
  rewrite (constant_estimate 0 s1 s2 (5 / 100) (Z.to_nat 4000) (Z.to_nat 100) (Z.to_nat 1000) (Z.to_nat 25) 1000); try assumption; try lia; try lra;
    rewrite ?EI by lia; try lra.
  2:{ rewrite Rltb_false by lra. reflexivity. }
  cbn [rejects fst]. unfold hockey_reject, exceeds. cbn [xltb quarter hs_delta]. apply Rltb_true.
  replace (Nat.min (Z.to_nat 4000) (Z.to_nat 100)) with (Z.to_nat 100) by lia. rewrite plus_INR, minus_INR by lia. rewrite !EI by lia.
  assert (Hl : ln (1 / (5 / 100)) <= 5).
  { assert (L2' : ln 2 <= 1).
    { apply (Rle_trans _ (ln (exp 1))); [|rewrite ln_exp; lra]. apply ln_le_mono; [lra|]. pose proof (exp_ineq1_le 1). lra. }
    apply (Rle_trans _ (ln (2 ^ 5))); [apply ln_le_mono; lra|]. rewrite ln_pow by lra. cbn [INR]. lra. }
  assert (sqrt (ln (1 / (5 / 100)) / 2 / 100) <= 16 / 100); [|lra].
  apply Rle_trans with (sqrt (16 / 100 * (16 / 100))); [apply sqrt_le_1_alt; lra|]. rewrite sqrt_square; lra.
Qed.
