(** Concrete objects of the four classes. *)
From Verif Require Import Base XReal Exn TypesAdjacency ModelLog ModelMech SpecDP SpecMech SpecClasses ProofNoise ProofShape ProofShapeGauss ProofShapeInt
  ProofLog ProofAdditive ProofClasses ProofMechTop ProofGuarantee ProofNormal.
Local Arguments Rltb : simpl never.
Local Arguments Rleb : simpl never.
Local Arguments Reqb : simpl never.

Lemma classes_example : forall adj,
  (exists m, additive_noise m any_value (laplace_law 2) (fun x => exp (- Rabs x / 2)) 3 (1/2) adj) /\
  (exists Phi m, additive_noise m any_value (fun x => Phi (x / 2)) (fun x => exp (- (x * x) / (2 * (2 * 2)))) 3 (1/2) adj) /\
  (exists F m, additive_noise m integer_value F (fun x => dlaplace_weights 2 (Rfloor x)) (IZR 3) (1/2) adj) /\
  (exists F m, additive_noise m integer_value F (fun x => dgaussian_weights 2 10 (Rfloor x)) (IZR 3) (1/2) adj) /\
  ~ near_limit adj (1/2) 0 /\ loss_possible adj (1/2) 0 /\ integer_value 1.
Proof.
  intros adj. pose proof ln_2_bounds as L2. assert (E : ln (1 - 1/2) = - ln 2) by (rewrite <- ln_Rinv by lra; f_equal; lra).
  split; [|split; [|split; [|split; [|split; [|split]]]]].
  - eexists. apply laplace_noise. unfold LaplacePrivacyLoss. rewrite Rleb_false by lra. rewrite check_additive_true by lra. reflexivity.
  - destruct normal_cdf_exists as [Phi HP]. exists Phi. eexists. apply (gaussian_noise _ Phi (fun _ => 0) 2 3 true (-50) (1/2) adj HP).
    unfold GaussianPrivacyLoss. rewrite Rleb_false, Rltb_false by lra. rewrite check_additive_true by lra. reflexivity.
  - exists (dlaplace_law 2). eexists. apply discrete_laplace_noise; [apply dlaplace_noise; lra|].
    unfold DiscreteLaplacePrivacyLoss. rewrite Rleb_false by lra. rewrite check_additive_true by lra. reflexivity.
  - exists (dgaussian_law 2 10). eexists. apply discrete_gaussian_noise; [apply dgaussian_noise; (lra || lia)|].
    unfold DiscreteGaussianPrivacyLoss. rewrite Rleb_false by lra. cbn [Z.ltb Z.mul Z.compare]. rewrite check_additive_true by lra. reflexivity.
  - intros [_ N]. revert N. destruct adj; cbn [loss_limit]; rewrite E, Rminus_0_l, ?Ropp_involutive, ?Rabs_Ropp, Rabs_R0, Rabs_right by lra;
      rewrite Rmax_right by lra; lra.
  - intros _. destruct adj; cbn [loss_limit]; rewrite E; lra.
  - exists 1%Z. reflexivity.
Qed.

Lemma query_example F : noisy_query any_value F (1/2) 3 (observe (sampled (1/2) (add_noise F 5) (add_noise F (5 + -2))) (add_noise F 5) [0; 4]).
Proof.
  exists 5, (-2), [0; 4]. repeat split; try exact Logic.I.
  - rewrite Rabs_left by lra. lra.
  - repeat constructor; lra.
Qed.

Lemma guarantee_example :
  (exists b, laplace_from_guarantee (1, 0) 3 (1/2) = Ok (Fin b)) /\
  (exists a F, dlaplace_from_guarantee (1, 0) 3 (1/2) = Ok (Fin a) /\ integer_noise (dlaplace_weights a) F).
Proof.
  split; [apply laplace_guarantee_total; lra|].
  pose proof (unamplified_pos (1/2) 1 ltac:(lra) ltac:(lra)) as U.
  exists (unamplified (1/2) 1 / IZR 3), (dlaplace_law (unamplified (1/2) 1 / IZR 3)).
  split; [|apply dlaplace_noise; apply Rdiv_lt_0_compat; lra].
  unfold dlaplace_from_guarantee. cbn [Z.leb Z.compare]. rewrite Rleb_false by lra. cbn [orb].
  assert (I : isclose (Fin (1/2)) (Fin 0) = false).
  { unfold isclose. destruct (Rleb_spec (Rabs (1/2 - 0)) (1 / 10 ^ 9 * Rmax (Rabs (1/2)) (Rabs 0))) as [H|H]; [|reflexivity].
    exfalso. revert H. rewrite Rminus_0_r, Rabs_R0, Rabs_right, Rmax_left by lra. lra. }
  rewrite I. unfold xsub. cbn [fst xneg xadd xdiv]. rewrite (Reqb_false (1/2) 0) by lra. cbn [xadd].
  unfold unamplified, Rminus in U |- *. assert (1 < exp 1) by (pose proof (exp_ineq1 1 ltac:(lra)); lra).
  assert (0 < (exp 1 + - (1)) / (1/2)) by (apply Rdiv_lt_0_compat; lra).
  rewrite np_log_pos by lra. cbn [xdiv]. rewrite Reqb_false by lra. cbn [xleb].
  rewrite Rleb_false by (apply Rdiv_lt_0_compat; [assumption | lra]).
  rewrite check_additive_true by lra. reflexivity.
Qed.
