(** The constructors succeed for all four classes; an example. *)
From Verif Require Import Base XReal Exn PyDict TypesAdjacency ModelPmf ModelPld ModelMake ModelMech SpecDP SpecPmf SpecPld SpecMake SpecMech SpecClasses SpecConstruct
  ProofDP ProofPeak ProofNoise ProofShape ProofShapeGauss ProofShapeInt ProofAdditive ProofClasses ProofMechTop
  ProofBuckets ProofTails ProofTailClasses ProofConstruct ProofConstructTotal ProofNormal.
Local Arguments Rltb : simpl never.
Local Arguments Rleb : simpl never.
Local Arguments Reqb : simpl never.

Definition succeeds {A} (r : nat -> res A) : Prop := exists N a, forall fuel, (N <= fuel)%nat -> r fuel = Ok a.
Lemma subsampled_total q (single : nat -> adjacency -> res pmf) : (forall adj, succeeds (fun fuel => single fuel adj)) ->
  succeeds (fun fuel => subsampled_pld (single fuel) q).
Proof.
  intros H. destruct (H REMOVE) as (N1 & r & H1). destruct (H ADD) as (N2 & a & H2).
  exists (max N1 N2), (if Reqb q 1 then new_pld r None else new_pld r (Some a)). intros fuel Hf. unfold subsampled_pld. rewrite H1 by lia. cbn [bind].
  destruct (Reqb q 1); [reflexivity|]. rewrite H2 by lia. reflexivity.
Qed.
Lemma monotone_total m pess disc dots : (dots = true -> pess = true -> exists p, dots_pmf m disc = Ok p) -> (exists N p, forall fuel, (N <= fuel)%nat -> buckets_pmf fuel m pess disc = Ok p) ->
  succeeds (fun fuel => monotone_pmf fuel m pess disc dots).
Proof.
  intros HD (N & p' & Hp'). unfold monotone_pmf. destruct (dots && pess)%bool eqn:E.
  - apply andb_prop in E. destruct (HD (proj1 E) (proj2 E)) as [p Hp]. exists O, p. intros _ _. exact Hp.
  - exists N, p'. exact Hp'.
Qed.
Lemma class_total (cls : adjacency -> res monotone) pess disc q dots :
  (forall adj, exists m, cls adj = Ok m /\ (dots = true -> pess = true -> exists p, dots_pmf m disc = Ok p) /\ (exists N p, forall fuel, (N <= fuel)%nat -> buckets_pmf fuel m pess disc = Ok p)) ->
  succeeds (fun fuel => subsampled_pld (fun adj => let? m := cls adj in monotone_pmf fuel m pess disc dots) q).
Proof.
  intros H. apply (subsampled_total q (fun fuel adj => let? m := cls adj in monotone_pmf fuel m pess disc dots)).
  intros adj. destruct (H adj) as (m & E & H1 & H2). destruct (monotone_total m pess disc dots H1 H2) as (N & p & Hp).
  exists N, p. intros fuel Hf. rewrite E. cbn [bind]. apply Hp, Hf.
Qed.

Lemma dict2_fin l1 v1 l2 v2 : forall k v, In (k, v) (dict2 (Fin l1) v1 (Fin l2) v2) -> k = PInf \/ exists a, k = Fin a.
Proof. unfold dict2. intros k v. destruct (xeqb _ _); intros H; cbn in H; right; repeat (destruct H as [H|H]; [injection H as <- <-; eexists; reflexivity|]); destruct H. Qed.
Lemma fin_loss (loss0 : adjacency -> xr -> res xr) s pk pt Lf q adj x : loses s pk loss0 pt Lf -> 0 < q <= 1 -> pt adj x ->
  (exists a, base_loss s Lf adj x = Fin a) -> exists a, a_privacy_loss q adj (loss0 adj) (Fin x) = Ok (Fin a).
Proof.
  intros HL Hq Hx [a E]. rewrite (loss_ok _ _ _ _ _ HL q Hq adj x Hx), E. destruct (sub_loss_fin adj q a) as [c ->]. exists c. reflexivity.
Qed.

Lemma laplace_constructs b s pess disc q dots : 0 < b -> 0 < s -> 0 < q <= 1 -> 0 < disc -> (dots = true -> pess = true -> grid_clear disc q) ->
  succeeds (fun fuel => from_laplace_mechanism fuel b s pess disc q dots).
Proof.
  intros Hb Hs Hq Hd HG. apply class_total. intros adj. eexists. split.
  { unfold LaplacePrivacyLoss. rewrite Rleb_false by lra. rewrite check_additive_true by assumption. reflexivity. }
  set (m := additive _ _ _ _ _ _ _ _ _).
  assert (Em : LaplacePrivacyLoss b s q adj = Ok m) by (unfold LaplacePrivacyLoss; rewrite Rleb_false by lra; rewrite check_additive_true by assumption; reflexivity).
  pose proof (laplace_noise m b s q adj Em) as HA. pose proof (laplace_loses b s Hb Hs) as HL.
  assert (TOT : forall x, exists a, privacy_loss m (Fin x) = Ok (Fin a)).
  { intros x. apply (fin_loss (laplace_loss0 b s) _ _ _ _ q adj x HL Hq Logic.I). destruct adj; eexists; reflexivity. }
  split.
  - intros HG1 HG2. apply (dots_pmf_total m _ _ _ _ q adj HA disc Hd (HG HG1 HG2 adj)). left. cbn [m additive is_discrete connect_dots_bounds]. unfold laplace_bounds.
    assert (C : 0 < s / b) by (apply Rdiv_lt_0_compat; assumption). set (c := s / b) in *.
    assert (L : ln (1 - q + q * exp (- c)) <= ln (1 - q + q * exp c)).
    { assert (exp (- c) <= exp c) by (apply exp_le; lra). pose proof (exp_pos (- c)). pose proof (exp_pos c).
      assert (0 < q * exp (- c)) by (apply Rmult_lt_0_compat; lra). assert (q * exp (- c) <= q * exp c) by (apply Rmult_le_compat_l; lra).
      apply ln_le_iff; lra. }
    destruct (Reqb q 1); [|destruct adj]; do 2 eexists; (split; [reflexivity|]; split; [reflexivity | lra]).
  - destruct (TOT (match adj with ADD => 0 | REMOVE => - s end)) as [l1 E1]. destruct (TOT (match adj with ADD => s | REMOVE => 0 end)) as [l2 E2].
    cbn [m additive privacy_loss] in E1, E2.
    destruct adj; (eapply (buckets_total m _ _ _ _ q _ HA disc Hd pess);
      [cbn [m additive privacy_loss_tail]; unfold laplace_tail, laplace_privacy_loss; rewrite E1, E2; reflexivity | apply dict2_fin | left; split; [reflexivity | exact TOT]]).
Qed.

Lemma gaussian_constructs Phi ppf sigma s pess disc lb q dots : normal_cdf Phi -> quantile_of Phi ppf -> 0 < sigma -> 0 < s -> lb <= 0 -> 0 < q <= 1 -> 0 < disc ->
  (dots = true -> pess = true -> grid_clear disc q) -> succeeds (fun fuel => from_gaussian_mechanism Phi ppf fuel sigma s pess disc lb q dots).
Proof.
  intros HP HQ Hb Hs Hlb Hq Hd HG. apply class_total. intros adj. eexists. split.
  { unfold GaussianPrivacyLoss. rewrite Rleb_false, Rltb_false by lra. rewrite check_additive_true by assumption. reflexivity. }
  set (m := additive _ _ _ _ _ _ _ _ _).
  assert (Em : GaussianPrivacyLoss Phi ppf sigma s pess lb q adj = Ok m)
    by (unfold GaussianPrivacyLoss; rewrite Rleb_false, Rltb_false by lra; rewrite check_additive_true by assumption; reflexivity).
  pose proof (gaussian_noise m Phi ppf sigma s pess lb q adj HP Em) as HA. pose proof (gaussian_loses sigma s Hb Hs) as HL.
  assert (TOT : forall x, exists a, privacy_loss m (Fin x) = Ok (Fin a)).
  { intros x. apply (fin_loss (gaussian_loss0 sigma s) _ _ _ _ q adj x HL Hq Logic.I). destruct adj; eexists; reflexivity. }
  assert (NEG : sigma * ppf (1/2 * exp lb) <= 0).
  { assert (exp lb <= 1) by (rewrite <- exp_0; apply exp_le; assumption). pose proof (exp_pos lb).
    assert (ppf (1/2 * exp lb) <= 0) by (apply (quantile_neg Phi); [assumption | assumption | lra]). nra. }
  set (l0 := sigma * ppf (1/2 * exp lb)) in *.
  set (lo := match adj with ADD => l0 | REMOVE => l0 - s end). set (hi := match adj with ADD => - l0 + s | REMOVE => - l0 end).
  assert (ET : (match adj with ADD => (l0, - l0 + s) | REMOVE => (l0 - s, - l0) end) = (lo, hi)) by (destruct adj; reflexivity).
  assert (LH : lo <= hi) by (unfold lo, hi; destruct adj; lra).
  destruct (TOT lo) as [l1 E1]. destruct (TOT hi) as [l2 E2].
  assert (TL : exists t, gaussian_tail Phi ppf sigma s pess lb q adj = Ok t /\ lower_x_truncation t = lo /\ upper_x_truncation t = hi /\
    forall k v, In (k, v) (tail_masses t) -> k = PInf \/ exists a, k = Fin a).
  { unfold gaussian_tail. fold l0. rewrite ET. cbn [m additive privacy_loss] in E1, E2. unfold gaussian_privacy_loss. rewrite E1, E2. cbn [bind].
    destruct pess; eexists; (split; [reflexivity|]; split; [reflexivity|]; split; [reflexivity|]); cbn [tail_masses dict2 xeqb]; intros k v H; cbn in H;
      repeat (destruct H as [H|H]; [injection H as <- <-; try (left; reflexivity); right; eexists; reflexivity|]); destruct H. }
  destruct TL as (t & Et & El & Eu & TK). split.
  - intros HG1 HG2. apply (dots_pmf_total m _ _ _ _ q adj HA disc Hd (HG HG1 HG2 adj)). left. exists l1, l2. split; [reflexivity|]. split.
    + cbn [m additive connect_dots_bounds]. unfold gaussian_bounds. rewrite Et. cbn [bind]. rewrite El, Eu. unfold gaussian_privacy_loss.
      cbn [m additive privacy_loss] in E1, E2. rewrite E1, E2. reflexivity.
    + apply xleb_fin. apply (mech_mono _ _ _ _ _ _ _ HA lo hi _ _ E1 E2 LH).
  - apply (buckets_total m _ _ _ _ q adj HA disc Hd pess t Et TK). left. split; [reflexivity | exact TOT].
Qed.

Lemma dlaplace_constructs a s pess disc q dots : 0 < a -> (0 < s)%Z -> 0 < q <= 1 -> 0 < disc -> (dots = true -> pess = true -> grid_clear disc q) ->
  succeeds (fun fuel => from_discrete_laplace_mechanism fuel a s pess disc q dots).
Proof.
  intros Hb Hs Hq Hd HG. pose proof (IZR_lt _ _ Hs) as Hs'. apply class_total. intros adj. eexists. split.
  { unfold DiscreteLaplacePrivacyLoss. rewrite Rleb_false by lra. rewrite check_additive_true by assumption. reflexivity. }
  set (m := additive _ _ _ _ _ _ _ _ _).
  assert (Em : DiscreteLaplacePrivacyLoss a s q adj = Ok m) by (unfold DiscreteLaplacePrivacyLoss; rewrite Rleb_false by lra; rewrite check_additive_true by assumption; reflexivity).
  pose proof (discrete_laplace_noise m a s q adj _ (ProofShapeInt.dlaplace_noise a Hb) Em) as HA. pose proof (dlaplace_loses a s Hb Hs) as HL.
  assert (TOT : forall z, exists c, privacy_loss m (Fin (IZR z)) = Ok (Fin c)).
  { intros z. apply (fin_loss (dlaplace_loss0 a s) _ _ _ _ q adj (IZR z) HL Hq (int_IZR z)). destruct adj; eexists; reflexivity. }
  split.
  - intros HG1 HG2. apply (dots_pmf_total m _ _ _ _ q adj HA disc Hd (HG HG1 HG2 adj)). right. cbn [m additive is_discrete connect_dots_bounds]. unfold dlaplace_bounds.
    destruct adj; do 2 eexists; (split; [reflexivity|]; split; [reflexivity|]; split; [lia | intros y _; apply TOT]).
  - destruct (TOT (match adj with ADD => 1 | REMOVE => 1 - s end - 1)%Z) as [l1 E1]. destruct (TOT (match adj with ADD => s - 1 | REMOVE => -1 end + 1)%Z) as [l2 E2].
    cbn [m additive privacy_loss] in E1, E2.
    destruct adj; (eapply (buckets_total m _ _ _ _ q _ HA disc Hd pess);
      [cbn [m additive privacy_loss_tail]; unfold dlaplace_tail, dlaplace_privacy_loss; rewrite E1, E2; reflexivity | apply dict2_fin |
       right; do 2 eexists; (split; [reflexivity|]; split; [reflexivity|]; split; [reflexivity | intros y _; apply TOT])]).
Qed.

Lemma dgauss_constructs sigma s bound pess disc q dots : 0 < sigma -> (0 < s <= 2 * default_bound sigma bound)%Z -> 0 < q <= 1 -> 0 < disc -> (dots = true -> pess = true -> grid_clear disc q) ->
  succeeds (fun fuel => from_discrete_gaussian_mechanism fuel sigma s bound pess disc q dots).
Proof.
  intros Hb [Hs HT] Hq Hd HG. pose proof (IZR_lt _ _ Hs) as Hs'. apply class_total. set (T := default_bound sigma bound) in *. intros adj. eexists. split.
  { unfold DiscreteGaussianPrivacyLoss. rewrite Rleb_false by lra. rewrite (proj2 (Z.ltb_ge _ _)) by lia. rewrite check_additive_true by assumption. reflexivity. }
  set (m := additive _ _ _ _ _ _ _ _ _).
  assert (Em : DiscreteGaussianPrivacyLoss sigma s T q adj = Ok m)
    by (unfold DiscreteGaussianPrivacyLoss; rewrite Rleb_false by lra; rewrite (proj2 (Z.ltb_ge _ _)) by lia; rewrite check_additive_true by assumption; reflexivity).
  pose proof (discrete_gaussian_noise m sigma s T q adj _ (dgaussian_noise sigma T ltac:(lia)) Em) as HA. pose proof (dgauss_loses sigma s T Hb Hs HT) as HL.
  destruct (dgauss_truncation s T q adj) as [lo hi] eqn:ET.
  assert (LH : (lo <= hi)%Z) by (unfold dgauss_truncation in ET; destruct adj, (Reqb q 1); injection ET as <- <-; lia).
  assert (TOT : forall z, (lo <= z <= hi)%Z -> exists c, privacy_loss m (Fin (IZR z)) = Ok (Fin c)).
  { intros z Hz. cbn [m additive privacy_loss].
    assert (PT : dg_pt s T adj (IZR z)).
    { unfold dg_pt. unfold dgauss_truncation in ET. destruct adj; (split; [rewrite <- ?plus_IZR; apply int_IZR|]); rewrite <- ?opp_IZR, <- ?plus_IZR;
        destruct (Reqb q 1); injection ET as <- <-; split; apply IZR_le; lia. }
    rewrite (loss_ok _ _ _ _ _ HL q Hq adj _ PT).
    assert (B : (q = 1 -> (s - T <= match adj with ADD => z | REMOVE => z + s end <= T)%Z) /\
                match adj with ADD => (z <= T)%Z | REMOVE => (s - T <= z + s)%Z end).
    { unfold dgauss_truncation in ET. destruct (Reqb_spec q 1) as [Q|Q]; destruct adj; injection ET as <- <-; split; intros; try lia; try (exfalso; tauto). }
    destruct B as [B1 B2]. destruct adj; cbn [base_loss]; unfold dg_L.
    - replace (IZR z - IZR s + IZR s) with (IZR z) by ring. rewrite <- minus_IZR, Rltb_false by (apply IZR_le; lia).
      destruct (Rltb_spec (IZR z) (IZR (s - T))) as [G|G]; [|destruct (sub_loss_fin ADD q (IZR s * (1 / 2 * IZR s - IZR z) / (sigma * sigma))) as [c ->]; exists c; reflexivity].
      apply lt_IZR in G. cbn [sub_loss xneg sub_remove]. rewrite Reqb_false; [eexists; reflexivity|]. intros Q. specialize (B1 Q). lia.
    - rewrite <- plus_IZR, <- minus_IZR. destruct (Rltb_spec (IZR T) (IZR (z + s))) as [G|G].
      + apply lt_IZR in G. cbn [sub_loss sub_remove]. rewrite Reqb_false; [eexists; reflexivity|]. intros Q. specialize (B1 Q). lia.
      + rewrite Rltb_false by (apply IZR_le; lia). destruct (sub_loss_fin REMOVE q (IZR s * (1 / 2 * IZR s - IZR (z + s)) / (sigma * sigma))) as [c ->]; exists c; reflexivity. }
  split.
  - intros HG1 HG2. apply (dots_pmf_total m _ _ _ _ q adj HA disc Hd (HG HG1 HG2 adj)). right. exists lo, hi. cbn [m additive is_discrete connect_dots_bounds]. unfold dgauss_bounds. rewrite ET.
    split; [reflexivity|]. split; [reflexivity|]. split; [exact LH | exact TOT].
  - eapply (buckets_total m _ _ _ _ q adj HA disc Hd pess).
    + cbn [m additive privacy_loss_tail]. unfold dgauss_tail. rewrite ET. reflexivity.
    + cbn. intros k v [H|[]]. injection H as <- <-. left. reflexivity.
    + right. exists lo, hi. split; [reflexivity|]. split; [reflexivity|]. split; [reflexivity | exact TOT].
Qed.

(** without sampling the grid is always clear *)
Lemma grid_clear_1 disc : grid_clear disc 1.
Proof. intros adj z [H _]. lra. Qed.

(** the normal distribution has quantiles *)
Lemma quantile_exists Phi : normal_cdf Phi -> exists ppf, quantile_of Phi ppf.
Proof.
  intros HP. pose proof HP as ((B & M & Lo & Up) & c & Hc & D).
  assert (CT : forall x, continuity_pt Phi x) by (intros x; apply derivable_continuous_pt; exists (c * exp (- (x * x) / 2)); apply D).
  assert (BD : forall u, u < 1 -> bound (fun x => Phi x <= u)).
  { intros u Hu. destruct (Up (1 - u) ltac:(lra)) as [x Hx]. exists x. intros y Hy. apply Rnot_lt_le. intros L. pose proof (M x y ltac:(lra)). lra. }
  assert (NE : forall u, 0 < u -> exists x, Phi x <= u).
  { intros u Hu. destruct (Lo u Hu) as [x Hx]. exists x. lra. }
  exists (fun u => match Rlt_dec 0 u, Rlt_dec u 1 with left p, left r => proj1_sig (completeness _ (BD u r) (NE u p)) | _, _ => 0 end).
  intros u Hu. destruct (Rlt_dec 0 u) as [p|]; [|lra]. destruct (Rlt_dec u 1) as [r|]; [|lra].
  destruct (completeness _ (BD u r) (NE u p)) as [x [Ub Lb]]. cbn [proj1_sig].
  destruct (Rtotal_order (Phi x) u) as [L|[E|G]]; [|assumption|]; exfalso.
  - destruct (CT x (u - Phi x) ltac:(lra)) as (a & Ha & H). specialize (H (x + a / 2)). 
    assert (R : Phi (x + a / 2) <= u).
    { unfold R_met, dist, D_x, no_cond in H. cbn in H. unfold R_dist in H.
      assert (Rabs (Phi (x + a / 2) - Phi x) < u - Phi x).
      { apply H. split; [split; [exact Logic.I | lra]|]. replace (x + a / 2 - x) with (a / 2) by ring. rewrite Rabs_right; lra. }
      pose proof (Rle_abs (Phi (x + a / 2) - Phi x)). lra. }
    specialize (Ub _ R). lra.
  - destruct (CT x (Phi x - u) ltac:(lra)) as (a & Ha & H). specialize (H (x - a / 2)).
    assert (R : u < Phi (x - a / 2)).
    { unfold R_met, dist, D_x, no_cond in H. cbn in H. unfold R_dist in H.
      assert (Rabs (Phi (x - a / 2) - Phi x) < Phi x - u).
      { apply H. split; [split; [exact Logic.I | lra]|]. replace (x - a / 2 - x) with (- (a / 2)) by ring. rewrite Rabs_Ropp, Rabs_right; lra. }
      pose proof (Rle_abs (- (Phi (x - a / 2) - Phi x))) as Q. rewrite Rabs_Ropp in Q. lra. }
    assert (is_upper_bound (fun x => Phi x <= u) (x - a / 2)).
    { intros y Hy. apply Rnot_lt_le. intros L. pose proof (M (x - a / 2) y ltac:(lra)). lra. }
    specialize (Lb _ H0). lra.
Qed.
Lemma normal_exists : exists Phi ppf, normal_cdf Phi /\ quantile_of Phi ppf.
Proof. destruct normal_cdf_exists as [Phi HP]. destruct (quantile_exists Phi HP) as [ppf HQ]. exists Phi, ppf. split; assumption. Qed.

(** an example with sampling: the multiples of 1 are far from log 2 *)
Lemma ln2_bounds : 1 / 2 < ln 2 < 9 / 10.
Proof.
  split.
  - rewrite <- (ln_exp (1 / 2)). apply ln_increasing; [apply exp_pos|].
    assert (exp (1 / 2) * exp (1 / 2) <= 3) by (rewrite <- exp_plus; replace (1 / 2 + 1 / 2) with 1 by field; apply exp_le_3).
    pose proof (exp_pos (1 / 2)). nra.
  - rewrite <- (ln_exp (9 / 10)). apply ln_increasing; [lra|].
    replace (9 / 10) with (9 / 20 + 9 / 20) by field. rewrite exp_plus. pose proof (exp_ineq1 (9 / 20) ltac:(lra)). nra.
Qed.
Lemma grid_clear_half : grid_clear 1 (1 / 2).
Proof.
  pose proof ln2_bounds as B. assert (E : ln (1 - 1 / 2) = - ln 2) by (replace (1 - 1 / 2) with (/ 2) by field; apply ln_Rinv; lra).
  assert (K : forall z c, 1 / 2 < Rabs c < 9 / 10 -> Rabs (IZR z * 1 - c) <= 1 / 10 ^ 9 * Rmax (Rabs (IZR z * 1)) (Rabs c) -> False).
  { intros z c Hc. rewrite Rmult_1_r. assert (N : (1 / 10 ^ 9 : R) = 1 / 1000000000) by (f_equal; ring). rewrite N. clear N.
    destruct (Z_le_gt_dec (Z.abs z) 1) as [L|L].
    - assert (Rabs (IZR z) <= 1) by (rewrite <- abs_IZR; apply (IZR_le _ 1); lia).
      assert (Rmax (Rabs (IZR z)) (Rabs c) <= 1) by (apply Rmax_lub; lra). intros HH.
      assert (H1 : Rabs (IZR z - c) <= 1 / 1000000000) by lra.
      assert (D : z = (-1)%Z \/ z = 0%Z \/ z = 1%Z) by lia. clear HH H H0. revert H1 Hc. unfold Rabs.
      destruct D as [->|[->| ->]]; destruct (Rcase_abs (_ - c)), (Rcase_abs c); lra.
    - assert (2 <= Rabs (IZR z)) by (rewrite <- abs_IZR; apply (IZR_le 2); lia).
      rewrite Rmax_left by lra. intros HH. pose proof (Rabs_triang_inv (IZR z) c). lra. }
  intros adj z [_ H]. apply (K z (loss_limit adj (1 / 2))); [|exact H]. destruct adj; cbn [loss_limit]; rewrite E.
  - rewrite Ropp_involutive, Rabs_right by lra. lra.
  - rewrite Rabs_Ropp, Rabs_right by lra. lra.
Qed.
