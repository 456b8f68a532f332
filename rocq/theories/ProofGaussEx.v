(** Instances of the searches for the smallest Gaussian noise. *)
From Verif Require Import Base XReal Exn TypesAdjacency SpecDP SpecPmf SpecPld SpecMech SpecClasses SpecConstruct SpecSearch SpecNoiseAcc ModelPmf ModelPld ModelMake ModelSearch ModelSmallest ModelMech ModelNoise
  ProofDP ProofShape ProofShapeGauss ProofPeak ProofNormal ProofClasses ProofMechTop ProofConstruct ProofConstructEx ProofGuarantee ProofAdvanced ProofSmallestEx ProofFindNoise ProofNoiseEx
  ProofGaussNoise ProofGaussTotal ProofGdpTight.
Local Open Scope R_scope.
Local Arguments Rltb : simpl never.
Local Arguments Rleb : simpl never.
Local Arguments Reqb : simpl never.

Definition small_q : R := 1 - exp (- (1 / 2000)).
Lemma small_q_ok : 0 < small_q < 1.
Proof.
  unfold small_q. assert (L : exp (- (1 / 2000)) < exp 0) by (apply exp_increasing; lra). rewrite exp_0 in L. pose proof (exp_pos (- (1 / 2000))). split; lra.
Qed.
Lemma small_q_clear : grid_clear (1 / 1000) small_q.
Proof.
  assert (E : ln (1 - small_q) = - (1 / 2000)) by (unfold small_q; replace (1 - (1 - exp (- (1 / 2000)))) with (exp (- (1 / 2000))) by ring; apply ln_exp).
  assert (K : forall z c, Rabs c = 1 / 2000 -> Rabs (IZR z * (1 / 1000) - c) <= 1 / 10 ^ 9 * Rmax (Rabs (IZR z * (1 / 1000))) (Rabs c) -> False).
  { intros z c Hc. assert (N : (1 / 10 ^ 9 : R) = 1 / 1000000000) by (f_equal; ring). rewrite N. clear N. intros H. rewrite Hc in H.
    assert (Hd : 1 / 2000 <= Rabs (IZR z * (1 / 1000) - c)).
    { assert (D : c = 1 / 2000 \/ c = - (1 / 2000)) by (revert Hc; unfold Rabs; destruct (Rcase_abs c); lra). clear Hc H. destruct D as [-> | ->]; destruct (Z_le_gt_dec z 0) as [L|L].
      all: try (apply IZR_le in L). all: try (assert (L' : 1 <= IZR z) by (apply (IZR_le 1); lia)).
      all: try (rewrite Rabs_pos_eq; lra). all: try (rewrite Rabs_left1; lra).
      destruct (Z_le_gt_dec z (-1)) as [L2|L2]; [apply IZR_le in L2; rewrite Rabs_left1; lra|].
      apply le_IZR in L. assert (z = 0%Z) by lia. subst z. rewrite Rabs_pos_eq; lra. }
    assert (Rabs (IZR z * (1 / 1000)) <= Rabs (IZR z * (1 / 1000) - c) + Rabs c).
    { replace (IZR z * (1 / 1000)) with ((IZR z * (1 / 1000) - c) + c) at 1 by ring. apply Rabs_triang. }
    assert (Rmax (Rabs (IZR z * (1 / 1000))) (1 / 2000) <= Rabs (IZR z * (1 / 1000) - c) + 1 / 2000) by (apply Rmax_lub; lra). lra. }
  intros adj z [_ H]. apply (K z (loss_limit adj small_q)); [|exact H]. destruct adj; cbn [loss_limit]; rewrite E.
  - rewrite Ropp_involutive, Rabs_pos_eq by lra. reflexivity.
  - rewrite Rabs_left by lra. lra.
Qed.
Lemma gaussian_noise_example : exists Phi ppf, normal_cdf Phi /\ quantile_of Phi ppf /\
  privacy_parameters 1 (1 / 10 ^ 5) = Ok (1, 1 / 10 ^ 5) /\
  grid_clear (Rmin (1 / 10 ^ 3) (1/10 * 1 / IZR 3)) small_q /\
  exists fuel sigma sigma', smallest_gaussian_noise Phi ppf fuel (1, 1 / 10 ^ 5) 3 2 = Ok (Fin sigma) /\ 0 < sigma /\
    smallest_subsampled_gaussian_noise Phi ppf (fun k => k) fuel (1, 1 / 10 ^ 5) 3 2 small_q = Ok (Fin sigma') /\ 0 < sigma' /\
    exists E, interaction (repeat (noisy_query any_value (fun y => Phi (y / sigma)) 1 2) 3) E.
Proof.
  destruct normal_exists as (Phi & ppf & HP & HQ). exists Phi, ppf. split; [exact HP|]. split; [exact HQ|].
  assert (Ht : (1 / 10 ^ 5 : R) = 1 / 100000) by (f_equal; ring).
  assert (PP : privacy_parameters 1 (1 / 10 ^ 5) = Ok (1, 1 / 10 ^ 5)).
  { unfold privacy_parameters. rewrite !Ht. destruct (Rltb_spec 1 0); [lra|]. destruct (Rltb_spec (1 / 100000) 0); [lra|]. destruct (Rltb_spec 1 (1 / 100000)); [lra|]. reflexivity. }
  split; [exact PP|].
  assert (GC : grid_clear (Rmin (1 / 10 ^ 3) (1/10 * 1 / IZR 3)) small_q).
  { replace (Rmin (1 / 10 ^ 3) (1/10 * 1 / IZR 3)) with (1 / 1000); [apply small_q_clear|]. rewrite Rmin_left; lra. }
  split; [exact GC|]. pose proof small_q_ok as Q.
  destruct (gaussian_noise_total Phi ppf HP 1 (1 / 10 ^ 5) _ 3 2 PP) as (N1 & x & H1); try lra; try lia.
  destruct (subsampled_noise_total Phi ppf HP HQ (fun k => k) 1 (1 / 10 ^ 5) _ 3 2 small_q PP) as (N2 & H2); try lra; try lia; try exact GC.
  set (fuel := Nat.max N1 N2). specialize (H1 fuel ltac:(lia)). destruct (H2 fuel ltac:(lia)) as [y Hy]. cbn beta in H1.
  destruct (gaussian_noise_sound Phi HP ppf fuel 1 (1 / 10 ^ 5) _ 3 2 x PP ltac:(lia) ltac:(lra) H1) as (sigma & -> & Hs & _).
  destruct (subsampled_noise_sound Phi HP ppf (fun k => k) fuel 1 (1 / 10 ^ 5) _ 3 2 small_q y HQ (fun k => le_n k) PP ltac:(lia) ltac:(lra) ltac:(lra) GC Hy) as (sigma' & -> & Hs' & _).
  exists fuel, sigma, sigma'. split; [exact H1|]. split; [exact Hs|]. split; [exact Hy|]. split; [exact Hs'|].
  apply (query_exists any_value (gaussian_law Phi sigma) 2 3 (gaussian_family Phi sigma HP Hs)); [exact Logic.I | lra].
Qed.
Lemma guarantee_example_gauss : exists Phi ppf fuel sigma, normal_cdf Phi /\ gaussian_from_guarantee Phi ppf fuel (1, 1 / 10 ^ 5) 2 (1/3) = Ok (Fin sigma) /\ 0 < sigma /\
  exists E, noisy_query any_value (fun y => Phi (y / sigma)) (1/3) 2 E.
Proof.
  destruct normal_exists as (Phi & ppf & HP & HQ). destruct (guarantee_total Phi ppf HP 1 (1 / 10 ^ 5) 2 (1/3)) as (N & x & H); try lra.
  specialize (H N (le_n _)). cbn beta in H. destruct (gaussian_guarantee Phi ppf N 1 (1 / 10 ^ 5) 2 (1/3) x HP ltac:(lra) ltac:(lra) ltac:(lra) H) as (sigma & -> & Hs & _).
  exists Phi, ppf, N, sigma. split; [exact HP|]. split; [exact H|]. split; [exact Hs|].
  eexists. exists 0, 2, [0]. repeat split. rewrite Rabs_pos_eq; lra. repeat constructor.
Qed.
