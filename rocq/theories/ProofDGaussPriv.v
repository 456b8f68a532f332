(** Discrete Gaussian noise that is not truncated: how private it is, and that it exists. *)
From Coq Require Import FunctionalExtensionality.
From Verif Require Import Base XReal Exn PyDict SpecDP SpecPmf SpecPld SpecMech SpecDGauss SpecConstruct ModelPmf ModelPld ModelMake ModelMech
  ProofDP ProofDict ProofPeak ProofPld ProofShape ProofShapeInt ProofFindNoise ProofClasses ProofConstruct ProofConstructEx ProofDGaussTail.
Local Open Scope R_scope.

Lemma part_sampled tau q P0 P1 Q0 Q1 : 0 <= q <= 1 -> part_of tau P0 Q0 -> part_of tau P1 Q1 -> part_of tau (sampled q P0 P1) (sampled q Q0 Q1).
Proof.
  intros Hq H0 H1 x y L. specialize (H0 x y L). specialize (H1 x y L).
  assert (E : forall A B z, at_end (sampled q A B) z = (1 - q) * at_end A z + q * at_end B z) by (intros A B [?| | |]; cbn; unfold sampled; ring).
  rewrite !E.
  assert ((1 - q) * ((1 - tau) * (at_end P0 y - at_end P0 x)) <= (1 - q) * (at_end Q0 y - at_end Q0 x)) by (apply Rmult_le_compat_l; lra).
  assert (q * ((1 - tau) * (at_end P1 y - at_end P1 x)) <= q * (at_end Q1 y - at_end Q1 x)) by (apply Rmult_le_compat_l; lra). lra.
Qed.
Lemma part_shift tau P Q v : part_of tau P Q -> part_of tau (add_noise P v) (add_noise Q v).
Proof.
  intros H x y L.
  assert (E : forall A z, at_end (add_noise A v) z = at_end A (xadd z (Fin (- v)))) by (intros A [?| | |]; reflexivity).
  rewrite !E. apply H. destruct x as [a| | |], y as [b| | |]; try discriminate L; try reflexivity. cbn in *. destruct (Rleb_spec a b); [|discriminate]. apply Rleb_true. lra.
Qed.
Lemma part_private tau P Q P' Q' cuts eps delta : 0 <= tau <= 1 -> StronglySorted Rlt cuts -> part_of tau P P' -> part_of tau Q Q' ->
  0 <= delta -> hockey_stick (observe P Q cuts) eps <= delta -> hockey_stick (observe P' Q' cuts) eps <= delta + tau.
Proof.
  intros Ht HS HP HQ Hd H. unfold hockey_stick in *. cbn [observe outs prP prQ] in *.
  apply Rle_trans with (rsum (fun c => (1 - tau) * pos (at_end P (snd c) - at_end P (fst c) - exp eps * (at_end Q (snd c) - at_end Q (fst c)))
     + ((at_end P' (snd c) - at_end P' (fst c)) - (1 - tau) * (at_end P (snd c) - at_end P (fst c)))) (cells cuts)).
  - apply rsum_le. intros c Hc. pose proof (cells_ordered cuts HS c Hc) as L. specialize (HP _ _ L). specialize (HQ _ _ L). pose proof (exp_pos eps) as E0.
    set (p := at_end P (snd c) - at_end P (fst c)) in *. set (q := at_end Q (snd c) - at_end Q (fst c)) in *. set (p' := at_end P' (snd c) - at_end P' (fst c)) in *. set (q' := at_end Q' (snd c) - at_end Q' (fst c)) in *.
    assert (E1 : exp eps * ((1 - tau) * q) <= exp eps * q') by (apply Rmult_le_compat_l; lra).
    assert (E2 : (1 - tau) * (p - exp eps * q) <= (1 - tau) * pos (p - exp eps * q)) by (apply Rmult_le_compat_l; [lra | unfold pos; apply Rmax_r]).
    assert (E3 : 0 <= (1 - tau) * pos (p - exp eps * q)) by (apply Rmult_le_pos; [lra | unfold pos; apply Rmax_l]).
    unfold pos at 1. apply Rmax_lub; lra.
  - rewrite rsum_plus. rewrite rsum_scal.
    assert (T : rsum (fun c => at_end P' (snd c) - at_end P' (fst c) - (1 - tau) * (at_end P (snd c) - at_end P (fst c))) (cells cuts) = tau).
    { transitivity (rsum (fun c => (fun z => at_end P' z - (1 - tau) * at_end P z) (snd c) - (fun z => at_end P' z - (1 - tau) * at_end P z) (fst c)) (cells cuts)); [apply rsum_ext; intros; ring|].
      rewrite (cells_telescope (fun z => at_end P' z - (1 - tau) * at_end P z)). cbn [at_end]. ring. }
    rewrite T. set (S := rsum _ _) in *. assert ((1 - tau) * S <= (1 - tau) * delta) by (apply Rmult_le_compat_l; lra). nra.
Qed.

(** The truncated noise is a part of the full noise. *)
Lemma truncated_part sigma T G : 0 < sigma -> (0 <= T)%Z -> integer_noise (full_dgaussian_weights sigma) G ->
  let tau := 1 - (G (IZR T) - G (IZR (- T - 1))) in 0 <= tau <= 1 /\ part_of tau (dgaussian_law sigma T) G.
Proof.
  intros Hs HT HG tau. pose proof HG as (C & I & c & Hc & HS). pose proof C as (RG & MG & _).
  set (F := dgaussian_law sigma T). pose proof (dgaussian_noise sigma T HT) as HF. fold F in HF. pose proof HF as (CF & IF & _).
  assert (R : 0 <= tau <= 1).
  { unfold tau. assert (G (IZR (- T - 1)) <= G (IZR T)) by (apply MG, IZR_le; lia). pose proof (RG (IZR T)). pose proof (RG (IZR (- T - 1))). lra. }
  split; [exact R|].
  set (Z := dg_sum sigma T T).
  assert (ZP : 0 < Z) by (apply dg_total; exact HT).
  assert (FS : forall k, F (IZR k) - F (IZR (k - 1)) = / Z * dgaussian_weights sigma T k).
  { intros k. unfold F, dgaussian_law. rewrite !Rfloor_IZR. apply dg_step; exact HT. }
  (* G - c Z F only grows, and grows not at all on the range *)
  assert (ST : forall k, c * Z * (F (IZR k) - F (IZR (k - 1))) <= G (IZR k) - G (IZR (k - 1))).
  { intros k. rewrite FS, HS. unfold dgaussian_weights, full_dgaussian_weights. replace (c * Z * (/ Z * _)) with (c * (if (Z.abs k <=? T)%Z then exp (- (IZR k * IZR k) / (2 * (sigma * sigma))) else 0)) by (field; lra).
    apply Rmult_le_compat_l; [lra|]. destruct (Z.abs k <=? T)%Z; [lra | left; apply exp_pos]. }
  assert (SE : forall k, (- T <= k <= T)%Z -> G (IZR k) - G (IZR (k - 1)) <= c * Z * (F (IZR k) - F (IZR (k - 1)))).
  { intros k Hk. rewrite FS, HS. unfold dgaussian_weights, full_dgaussian_weights. rewrite (proj2 (Z.leb_le _ _)) by lia. right. field. lra. }
  assert (ET : 1 - tau = c * Z).
  { assert (F0 : F (IZR (- T - 1)) = 0) by (unfold F, dgaussian_law; rewrite Rfloor_IZR; apply dg_low; exact HT).
    assert (F1 : F (IZR T) = 1) by (unfold F, dgaussian_law; rewrite Rfloor_IZR; apply dg_high; exact HT).
    assert (A : G (IZR (- T - 1)) - c * Z * F (IZR (- T - 1)) <= G (IZR T) - c * Z * F (IZR T)).
    { apply (int_climb (fun k => G (IZR k) - c * Z * F (IZR k))); [lia|]. intros k _. specialize (ST k). lra. }
    assert (B : c * Z * F (IZR (- T - 1)) - G (IZR (- T - 1)) <= c * Z * F (IZR T) - G (IZR T)).
    { apply (int_climb (fun k => c * Z * F (IZR k) - G (IZR k))); [lia|]. intros k Hk. specialize (SE k ltac:(lia)). lra. }
    rewrite F0, F1 in *. unfold tau. lra. }
  apply part_end; try assumption. intros x y L. rewrite (I x), (I y), (IF x), (IF y), ET.
  assert (A : G (IZR (Rfloor x)) - c * Z * F (IZR (Rfloor x)) <= G (IZR (Rfloor y)) - c * Z * F (IZR (Rfloor y))); [|lra].
  apply (int_climb (fun k => G (IZR k) - c * Z * F (IZR k))); [apply Rfloor_mono, L|]. intros k _. specialize (ST k). lra.
Qed.

Lemma constructed_q fuel sigma s bound pess disc q dots D : from_discrete_gaussian_mechanism fuel sigma s bound pess disc q dots = Ok D ->
  0 < sigma /\ (0 < s <= 2 * default_bound sigma bound)%Z /\ 0 < q <= 1.
Proof.
  unfold from_discrete_gaussian_mechanism, subsampled_pld. unfold DiscreteGaussianPrivacyLoss.
  destruct (Rleb_spec sigma 0) as [|Hs]; [cbn [bind]; destruct (Reqb q 1); discriminate|].
  destruct (Z.ltb_spec (2 * default_bound sigma bound) s) as [|Hb]; [cbn [bind]; destruct (Reqb q 1); discriminate|].
  destruct (check_additive (IZR s) q) eqn:E; [|cbn [bind]; destruct (Reqb q 1); discriminate]. intros _.
  apply check_additive_ok in E. destruct E as [A B]. split; [lra|]. split; [|exact B]. split; [apply lt_IZR; exact A | exact Hb].
Qed.
Theorem untruncated_sound fuel sigma s disc q dots D G : 0 < disc -> grid_clear disc q ->
  from_discrete_gaussian_mechanism fuel sigma s None true disc q dots = Ok D ->
  integer_noise (full_dgaussian_weights sigma) G ->
  forall E eps, noisy_query integer_value G q (IZR s) E -> dp_both E eps (pld_delta D (Fin eps) + 1 / 10 ^ 30).
Proof.
  intros Hd Hg HD HG E eps (v & d & cuts & Iv & Id & Bd & SC & ->).
  destruct (constructed_q _ _ _ _ _ _ _ _ _ HD) as (Hs & Hb & Hq). set (T := default_bound sigma None) in *.
  pose proof (dgaussian_noise sigma T ltac:(lia)) as HF.
  destruct (constructed_sound fuel dots disc q D integer_value (dgaussian_law sigma T) (IZR s) Hd Hg) as [S B].
  { apply (by_discrete_gaussian fuel true dots disc q (Ok D) sigma s None); assumption. }
  set (E0 := observe (sampled q (add_noise (dgaussian_law sigma T) v) (add_noise (dgaussian_law sigma T) (v + d))) (add_noise (dgaussian_law sigma T) v) cuts).
  assert (Q0 : noisy_query integer_value (dgaussian_law sigma T) q (IZR s) E0) by (exists v, d, cuts; repeat split; assumption).
  destruct (pld_delta_sound D E0 eps S (B E0 Q0)) as [P1 P2]. apply dp_iff_hockey in P1. apply dp_iff_hockey in P2.
  pose proof (truncated_mass sigma G Hs HG) as M. cbv zeta in M. fold T in M.
  destruct (truncated_part sigma T G Hs ltac:(lia) HG) as [Ht P]. set (tau := 1 - (G (IZR T) - G (IZR (- T - 1)))) in *.
  assert (D0 : 0 <= pld_delta D (Fin eps)).
  { eapply Rle_trans; [|exact P1]. unfold hockey_stick. apply rsum_nonneg. intros. unfold pos. apply Rmax_l. }
  assert (PS : forall w, part_of tau (add_noise (dgaussian_law sigma T) w) (add_noise G w)) by (intros; apply part_shift; exact P).
  assert (PU : part_of tau (sampled q (add_noise (dgaussian_law sigma T) v) (add_noise (dgaussian_law sigma T) (v + d))) (sampled q (add_noise G v) (add_noise G (v + d)))) by (apply part_sampled; [lra | apply PS | apply PS]).
  split; apply dp_iff_hockey.
  - eapply Rle_trans; [apply (part_private tau _ _ _ _ cuts eps _ Ht SC PU (PS v) D0 P1)|]. lra.
  - rewrite swap_observe in *. unfold E0 in P2. rewrite swap_observe in P2. eapply Rle_trans; [apply (part_private tau _ _ _ _ cuts eps _ Ht SC (PS v) PU D0 P2)|]. lra.
Qed.

(** ** The full discrete Gaussian exists *)
Section Exists.
  Variable sigma : R.
  Hypothesis Hs : 0 < sigma.
  Let w (n : nat) := full_dgaussian_weights sigma (Z.of_nat n).
  Fixpoint wsum (n : nat) : R := match n with O => 0 | S m => wsum m + w (S m) end.
  Let r := exp (- (1 / (2 * (sigma * sigma)))).
  Lemma r_range : 0 < r < 1.
  Proof.
    split; [apply exp_pos|]. assert (P : 0 < 1 / (2 * (sigma * sigma))) by (apply Rdiv_lt_0_compat; nra).
    unfold r. assert (exp (- (1 / (2 * (sigma * sigma)))) < exp 0) by (apply exp_increasing; lra). rewrite exp_0 in *. lra.
  Qed.
  Lemma w_geom n : w n <= r ^ n.
  Proof.
    assert (EP : forall n x, exp (INR n * x) = exp x ^ n).
    { induction n0 as [|m IH]; intros x; [rewrite Rmult_0_l; apply exp_0|]. rewrite S_INR, Rmult_plus_distr_r, exp_plus, IH, Rmult_1_l. cbn. ring. }
    unfold w, r, full_dgaussian_weights. rewrite <- EP, <- INR_IZR_INZ. apply exp_le.
    apply (Rmult_le_reg_r (2 * (sigma * sigma))); [nra|]. replace (- (INR n * INR n) / (2 * (sigma * sigma)) * (2 * (sigma * sigma))) with (- (INR n * INR n)) by (field; lra).
    replace (INR n * - (1 / (2 * (sigma * sigma))) * (2 * (sigma * sigma))) with (- INR n) by (field; lra).
    destruct n as [|n]; [cbn; lra|]. rewrite S_INR. pose proof (pos_INR n). nra.
  Qed.
  Lemma wsum_bound n : wsum n <= r / (1 - r).
  Proof.
    pose proof r_range as R. assert (H : wsum n <= r / (1 - r) * (1 - r ^ n)).
    { induction n as [|n IH]; [cbn; lra|]. cbn [wsum]. pose proof (w_geom (S n)) as G. replace (r / (1 - r) * (1 - r ^ S n)) with (r / (1 - r) * (1 - r ^ n) + r ^ S n) by (cbn [pow]; field; lra). lra. }
    pose proof (pow_le r n ltac:(lra)). assert (0 < r / (1 - r)) by (apply Rdiv_lt_0_compat; lra). nra.
  Qed.
  Lemma wsum_grow : Un_growing wsum.
  Proof. intros n. cbn [wsum]. pose proof (exp_pos (- (IZR (Z.of_nat (S n)) * IZR (Z.of_nat (S n))) / (2 * (sigma * sigma)))) as X. change (0 < w (S n)) in X. lra. Qed.
  Lemma full_exists : exists G, integer_noise (full_dgaussian_weights sigma) G.
  Proof.
    destruct (growing_cv wsum wsum_grow) as [L HL].
    { exists (r / (1 - r)). intros x [n ->]. apply wsum_bound. }
    pose proof (growing_ineq wsum L wsum_grow HL) as B.
    assert (N0 : forall n, 0 <= wsum n). { induction n as [|n IH]; [cbn; lra|]. pose proof (wsum_grow n). lra. }
    pose proof (Rle_trans _ _ _ (N0 0%nat) (B 0%nat)) as L0.
    set (K := 2 * L + 1). assert (KP : 0 < K) by (unfold K; lra).
    set (g := fun k : Z => (if (0 <=? k)%Z then L + 1 + wsum (Z.to_nat k) else L - wsum (Z.to_nat (- k - 1))) / K).
    assert (ST : forall k, g k - g (k - 1)%Z = / K * full_dgaussian_weights sigma k).
    { intros k. unfold g. destruct (Z.leb_spec 0 k) as [P|P], (Z.leb_spec 0 (k - 1)) as [P'|P']; try lia.
      - replace (Z.to_nat k) with (S (Z.to_nat (k - 1))) by lia. cbn [wsum]. unfold w. replace (Z.of_nat (S (Z.to_nat (k - 1)))) with k by lia. field. lra.
      - assert (k = 0)%Z by lia. subst k. cbn. unfold full_dgaussian_weights. replace (- (0 * 0) / (2 * (sigma * sigma))) with 0 by (field; lra). rewrite exp_0. field. lra.
      - replace (Z.to_nat (- (k - 1) - 1)) with (S (Z.to_nat (- k - 1))) by lia. cbn [wsum]. unfold w. replace (Z.of_nat (S (Z.to_nat (- k - 1)))) with (- k)%Z by lia.
        unfold full_dgaussian_weights. rewrite opp_IZR. replace (- (- IZR k * - IZR k)) with (- (IZR k * IZR k)) by ring. field. lra. }
    exists (fun x => g (Rfloor x)). split; [apply int_cdf|split].
    - intros k. unfold g. destruct (Z.leb 0 k).
      + pose proof (B (Z.to_nat k)). pose proof (N0 (Z.to_nat k)). split; [apply Rmult_le_pos; [lra | left; apply Rinv_0_lt_compat; lra]|]. apply (Rmult_le_reg_r K); [lra|]. unfold Rdiv. rewrite Rmult_assoc, Rinv_l by lra. unfold K. lra.
      + pose proof (B (Z.to_nat (- k - 1))). pose proof (N0 (Z.to_nat (- k - 1))). split; [apply Rmult_le_pos; [lra | left; apply Rinv_0_lt_compat; lra]|]. apply (Rmult_le_reg_r K); [lra|]. unfold Rdiv. rewrite Rmult_assoc, Rinv_l by lra. unfold K. lra.
    - intros k. pose proof (ST k) as S. pose proof (exp_pos (- (IZR k * IZR k) / (2 * (sigma * sigma)))) as X. change (0 < full_dgaussian_weights sigma k) in X. assert (0 < / K) by (apply Rinv_0_lt_compat; lra). nra.
    - intros e He. destruct (HL (e * K)) as [N HN]; [apply Rlt_gt, Rmult_lt_0_compat; assumption|]. specialize (HN N (le_n _)). unfold R_dist in HN. rewrite Rabs_left1 in HN by (specialize (B N); lra).
      exists (- Z.of_nat N - 1)%Z. unfold g. destruct (Z.leb_spec 0 (- Z.of_nat N - 1)); [lia|]. replace (Z.to_nat (- (- Z.of_nat N - 1) - 1)) with N by lia.
      apply (Rmult_lt_reg_r K); [lra|]. unfold Rdiv. rewrite Rmult_assoc, Rinv_l by lra. lra.
    - intros e He. destruct (HL (e * K)) as [N HN]; [apply Rlt_gt, Rmult_lt_0_compat; assumption|]. specialize (HN N (le_n _)). unfold R_dist in HN. rewrite Rabs_left1 in HN by (specialize (B N); lra).
      exists (Z.of_nat N). unfold g. destruct (Z.leb_spec 0 (Z.of_nat N)); [|lia]. rewrite Nat2Z.id.
      apply (Rmult_lt_reg_r K); [lra|]. unfold Rdiv. rewrite Rmult_assoc, Rinv_l by lra. unfold K in *. lra.
    - intros x. rewrite Rfloor_IZR. reflexivity.
    - exists (/ K). split; [apply Rinv_0_lt_compat; lra|]. intros k. rewrite !Rfloor_IZR. apply ST.
  Qed.
End Exists.
Lemma untruncated_example : exists G N D, integer_noise (full_dgaussian_weights 2) G /\ grid_clear 1 (1 / 2) /\
  from_discrete_gaussian_mechanism N 2 3 None true 1 (1 / 2) true = Ok D /\ exists E, noisy_query integer_value G (1 / 2) (IZR 3) E.
Proof.
  destruct (full_exists 2 ltac:(lra)) as [G HG].
  assert (B : (3 <= 2 * default_bound 2 None)%Z). { unfold default_bound. rewrite (Rceil_unique _ 24) by lra. lia. }
  destruct (dgauss_constructs 2 3 None true 1 (1 / 2) true) as (N & D & H); try lra; [lia | intros _ _; exact grid_clear_half|].
  exists G, N, D. split; [exact HG|]. split; [exact grid_clear_half|]. split; [apply H; lia|]. eexists. exists 0, 3, [1; 2]. split; [exists 0%Z; reflexivity|]. split; [exists 3%Z; reflexivity|].
  split; [rewrite Rabs_right; lra|]. split; [|reflexivity]. repeat constructor; lra.
Qed.
