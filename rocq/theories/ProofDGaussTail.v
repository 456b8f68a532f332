(** The default truncation of the discrete Gaussian distribution: the mass that is cut off, and
    the privacy of the noise that is not cut off. *)
From Coq Require Import FunctionalExtensionality.
From Verif Require Import Base XReal Exn PyDict SpecDP SpecPmf SpecPld SpecMech SpecDGauss SpecConstruct ModelPmf ModelPld ModelMech
  ProofDP ProofDict ProofPeak ProofPld ProofShape ProofShapeInt ProofFindNoise ProofConstruct ProofTaylor ProofHoeffding.
Local Open Scope R_scope.

Section Tail.
  Variables (sigma : R) (G : R -> R).
  Hypothesis Hs : 0 < sigma.
  Hypothesis HG : integer_noise (full_dgaussian_weights sigma) G.
  Notation w := (full_dgaussian_weights sigma).

  Lemma w_pos k : 0 < w k.
  Proof. apply exp_pos. Qed.
  Lemma w_mirror k : w (- k) = w k.
  Proof. unfold full_dgaussian_weights. rewrite opp_IZR. f_equal. f_equal. ring. Qed.
  (** One term of the tail is bounded by the next decrement of the weights. *)
  Lemma w_drop t k : 0 < t -> t * sigma <= IZR (k - 1) -> w k <= sigma / t * (w (k - 1) - w k).
  Proof.
    intros Ht Hk. rewrite minus_IZR in Hk.
    assert (E : w (k - 1) = exp ((2 * IZR k - 1) / (2 * (sigma * sigma))) * w k).
    { unfold full_dgaussian_weights. rewrite <- exp_plus. f_equal. rewrite minus_IZR. field. lra. }
    pose proof (exp_ineq1_le ((2 * IZR k - 1) / (2 * (sigma * sigma)))) as X.
    assert (Y : t / sigma <= (2 * IZR k - 1) / (2 * (sigma * sigma))).
    { apply (Rmult_le_reg_r (2 * (sigma * sigma))); [nra|]. replace (t / sigma * (2 * (sigma * sigma))) with (2 * (t * sigma)) by (field; lra).
      replace ((2 * IZR k - 1) / (2 * (sigma * sigma)) * (2 * (sigma * sigma))) with (2 * IZR k - 1) by (field; lra). lra. }
    pose proof (w_pos k). assert (t / sigma * w k <= w (k - 1) - w k) by (rewrite E; nra).
    assert (P : 0 < sigma / t) by (apply Rdiv_lt_0_compat; lra).
    replace (w k) with (sigma / t * (t / sigma * w k)) at 1 by (field; lra). apply Rmult_le_compat_l; lra.
  Qed.

  Variables (c t : R) (b : Z).
  Hypothesis Hc : 0 < c.
  Hypothesis HS : forall k, G (IZR k) - G (IZR (k - 1)) = c * w k.
  Hypothesis Ht : 0 < t.
  Hypothesis Hb : t * sigma <= IZR b.
  Notation kap := (c * (sigma / t)).
  Lemma kap_pos : 0 < kap.
  Proof. apply Rmult_lt_0_compat; [|apply Rdiv_lt_0_compat]; lra. Qed.

  Lemma upper_tail : 1 - G (IZR b) <= kap * w b.
  Proof.
    pose proof kap_pos as KP. destruct HG as (C & _). apply Rnot_lt_le. intros L.
    destruct (cdf_high G G C C (1 - G (IZR b) - kap * w b) ltac:(lra)) as (j & H & _).
    pose proof C as (_ & M & _). set (j' := Z.max j b). assert (H' : G (IZR j) <= G (IZR j')) by (apply M, IZR_le; lia).
    pose proof (int_climb (fun k => - (G (IZR k) + kap * w k)) b j' ltac:(lia)) as T. cbn beta in T.
    assert (Z : - (G (IZR b) + kap * w b) <= - (G (IZR j') + kap * w j')).
    { apply T. intros k Hk. pose proof (HS k) as Sk. assert (X : w k <= sigma / t * (w (k - 1) - w k)) by (apply w_drop; [exact Ht|]; assert (IZR b <= IZR (k - 1)) by (apply IZR_le; lia); lra).
      assert (c * w k <= c * (sigma / t * (w (k - 1) - w k))) by (apply Rmult_le_compat_l; lra). lra. }
    pose proof (w_pos j'). assert (0 < kap * w j') by (apply Rmult_lt_0_compat; assumption). lra.
  Qed.
  Lemma lower_tail : G (IZR (- b - 1)) <= kap * w b.
  Proof.
    pose proof kap_pos as KP. destruct HG as (C & _). apply Rnot_lt_le. intros L.
    destruct (cdf_low G G C C (G (IZR (- b - 1)) - kap * w b) ltac:(lra)) as (j & H & _).
    pose proof C as (_ & M & _). set (j' := Z.min j (- b - 1)). assert (H' : G (IZR j') <= G (IZR j)) by (apply M, IZR_le; lia).
    pose proof (int_climb (fun k => - (G (IZR k) - kap * w (k + 1))) j' (- b - 1) ltac:(lia)) as T. cbn beta in T.
    assert (Z : - (G (IZR j') - kap * w (j' + 1)) <= - (G (IZR (- b - 1)) - kap * w (- b - 1 + 1))).
    { apply T. intros k Hk. pose proof (HS k) as Sk. assert (X : w (- k) <= sigma / t * (w (- k - 1) - w (- k))) by (apply w_drop; [exact Ht|]; assert (IZR b <= IZR (- k - 1)) by (apply IZR_le; lia); lra).
      replace (- k - 1)%Z with (- (k + 1))%Z in X by lia. rewrite !w_mirror in X. replace (k - 1 + 1)%Z with k by lia.
      assert (c * w k <= c * (sigma / t * (w (k + 1) - w k))) by (apply Rmult_le_compat_l; lra). lra. }
    replace (- b - 1 + 1)%Z with (- b)%Z in Z by lia. rewrite w_mirror in Z.
    pose proof (w_pos (j' + 1)). assert (0 < kap * w (j' + 1)) by (apply Rmult_lt_0_compat; assumption). lra.
  Qed.
  Lemma half_lower : 6 / 10 <= exp (- (1 / 2)).
  Proof.
    replace (- (1 / 2)) with (INR 16 * - (1 / 32)) by (cbn; lra). assert (EP : forall n x, exp (INR n * x) = exp x ^ n).
    { induction n as [|n IH]; intros x; [rewrite Rmult_0_l; apply exp_0|]. rewrite S_INR, Rmult_plus_distr_r, exp_plus, IH, Rmult_1_l. cbn. ring. }
    rewrite EP. apply Rle_trans with ((31 / 32) ^ 16); [lra|]. apply pow_incr. pose proof (exp_ineq1_le (- (1 / 32))). lra.
  Qed.
  Lemma inside_mass : 116 / 10 <= t -> 11 / 10 * (c * sigma) <= G (IZR b) - G (IZR (- b - 1)).
  Proof.
    intros T1. destruct HG as ((_ & M & _) & _).
    assert (TS : 0 < t * sigma) by (apply Rmult_lt_0_compat; assumption). assert (B1 : (1 <= b)%Z). { assert (0 < b)%Z; [|lia]. apply lt_IZR. lra. }
    pose proof (HS 0) as S0. assert (W0 : w 0 = 1) by (unfold full_dgaussian_weights; replace (- (0 * 0) / (2 * (sigma * sigma))) with 0 by (field; lra); apply exp_0).
    rewrite W0 in S0. cbn [Z.sub Z.opp Z.add] in S0.
    destruct (Rlt_le_dec sigma 1) as [L|L].
    - destruct (Rlt_le_dec sigma (9 / 10)) as [L'|L'].
      + assert (G (IZR 0) <= G (IZR b)) by (apply M, IZR_le; lia). assert (G (IZR (- b - 1)) <= G (IZR (-1))) by (apply M, IZR_le; lia). nra.
      + pose proof (HS 1) as S1. pose proof (HS (- (1))) as S2. rewrite w_mirror in S2. cbn [Z.sub Z.opp Z.add Z.pos_sub] in S1, S2.
        assert (G (IZR 1) <= G (IZR b)) by (apply M, IZR_le; lia). assert (G (IZR (- b - 1)) <= G (IZR (-2))) by (apply M, IZR_le; lia).
        assert (W1 : 3 / 10 <= w 1).
        { unfold full_dgaussian_weights. pose proof (exp_ineq1_le (- (1 * 1) / (2 * (sigma * sigma)))) as X.
          assert (- (7 / 10) <= - (1 * 1) / (2 * (sigma * sigma))); [|lra]. apply (Rmult_le_reg_r (2 * (sigma * sigma))); [nra|].
          replace (- (1 * 1) / (2 * (sigma * sigma)) * (2 * (sigma * sigma))) with (- (1)) by (field; lra). nra. }
        change (G 1 - G 0 = c * w 1) in S1. change (G 0 - G (-1) = c * 1) in S0. change (G (-1) - G (-2) = c * w 1) in S2.
        change (G 1 <= G (IZR b)) in H. change (G (IZR (- b - 1)) <= G (-2)) in H0.
        assert (c * (3 / 10) <= c * w 1) by (apply Rmult_le_compat_l; lra). assert (c * sigma <= c * 1) by (apply Rmult_le_compat_l; lra). lra.
    - set (m := Rfloor sigma). pose proof (Rfloor_spec sigma) as F. fold m in F. assert (M1 : (1 <= m)%Z). { assert (0 < m)%Z; [|lia]. apply lt_IZR. lra. }
      assert (Mb : (m <= b)%Z). { apply le_IZR. assert (1 * sigma <= t * sigma) by (apply Rmult_le_compat_r; lra). lra. }
      assert (W : forall k, (- m <= k <= m)%Z -> 6 / 10 <= w k).
      { intros k Hk. apply Rle_trans with (exp (- (1 / 2))); [apply half_lower|]. unfold full_dgaussian_weights. apply exp_le.
        apply (Rmult_le_reg_r (2 * (sigma * sigma))); [nra|]. replace (- (IZR k * IZR k) / (2 * (sigma * sigma)) * (2 * (sigma * sigma))) with (- (IZR k * IZR k)) by (field; lra).
        assert (IZR k <= IZR m) by (apply IZR_le; lia). assert (- IZR m <= IZR k) by (rewrite <- opp_IZR; apply IZR_le; lia). nra. }
      assert (U : G (IZR 0) - 6 / 10 * c * IZR 0 <= G (IZR m) - 6 / 10 * c * IZR m).
      { apply (int_climb (fun k => G (IZR k) - 6 / 10 * c * IZR k)); [lia|]. intros k Hk. pose proof (HS k) as Sk. specialize (W k ltac:(lia)). rewrite (minus_IZR k 1) at 2. nra. }
      assert (V : G (IZR (- m - 1)) - 6 / 10 * c * IZR (- m - 1) <= G (IZR (-1)) - 6 / 10 * c * IZR (-1)).
      { apply (int_climb (fun k => G (IZR k) - 6 / 10 * c * IZR k)); [lia|]. intros k Hk. pose proof (HS k) as Sk. specialize (W k ltac:(lia)). rewrite (minus_IZR k 1) at 2. nra. }
      rewrite minus_IZR, opp_IZR in V. assert (G (IZR m) <= G (IZR b)) by (apply M, IZR_le; lia). assert (G (IZR (- b - 1)) <= G (IZR (- m - 1))) by (apply M, IZR_le; lia).
      assert (1 <= IZR m) by (apply IZR_le; lia).
      replace (IZR (- m - 1)) with (- IZR m - 1) in * by (rewrite minus_IZR, opp_IZR; reflexivity).
      assert (c * sigma <= c * (IZR m + 1)) by (apply Rmult_le_compat_l; lra). nra.
  Qed.
End Tail.

Lemma exp_tail : exp (- (116 / 10 * (116 / 10) / 2)) <= 63 / 10 ^ 31.
Proof.
  assert (EP : forall n x, exp (INR n * x) = exp x ^ n).
  { induction n as [|n IH]; intros x; [rewrite Rmult_0_l; apply exp_0|]. rewrite S_INR, Rmult_plus_distr_r, exp_plus, IH, Rmult_1_l. cbn. ring. }
  assert (A : 11331 / 10000 <= exp (1 / 8)).
  { pose proof (exp_taylor 5 (1 / 8)) as T. rewrite (Rabs_right (1 / 8)) in T by lra. specialize (T ltac:(lra)).
    pose proof (Rle_abs (- (exp (1 / 8) - exp_poly 5 (1 / 8)))) as X. rewrite Rabs_Ropp in X. unfold exp_poly in *. cbn in T, X. lra. }
  assert (B : 2717 / 1000 <= exp 1).
  { replace 1 with (INR 8 * (1 / 8)) by (cbn; lra). rewrite EP. apply Rle_trans with ((11331 / 10000) ^ 8); [lra | apply pow_incr; lra]. }
  assert (K : 10 ^ 31 / 63 <= exp (116 / 10 * (116 / 10) / 2)).
  { replace (116 / 10 * (116 / 10) / 2) with (INR 67 * 1 + (INR 2 * (1 / 8) + 3 / 100)) by (cbn; lra). rewrite !exp_plus, !EP.
    pose proof (exp_ineq1_le (3 / 100)) as X.
    apply Rle_trans with ((2717 / 1000) ^ 67 * ((11331 / 10000) ^ 2 * (103 / 100))); [lra|].
    apply Rmult_le_compat; [apply pow_le; lra | apply Rmult_le_pos; [apply pow_le|]; lra | apply pow_incr; lra|].
    apply Rmult_le_compat; [apply pow_le; lra | lra | apply pow_incr; lra | lra]. }
  rewrite exp_Ropp. replace (63 / 10 ^ 31) with (/ (10 ^ 31 / 63)) by (field; lra). apply Rinv_le_contravar; lra.
Qed.

(** ** The mass that is cut off *)
Lemma truncated_mass sigma G : 0 < sigma -> integer_noise (full_dgaussian_weights sigma) G ->
  let b := default_bound sigma None in 1 - (G (IZR b) - G (IZR (- b - 1))) <= 1 / 10 ^ 30.
Proof.
  intros Hs HG b. pose proof HG as ((R & _) & _ & c & Hc & HS).
  assert (Hb : 116 / 10 * sigma <= IZR b) by (unfold b, default_bound; apply Rceil_spec).
  pose proof (upper_tail sigma G Hs HG c (116 / 10) b Hc HS ltac:(lra) Hb) as U. pose proof (lower_tail sigma G Hs HG c (116 / 10) b Hc HS ltac:(lra) Hb) as L.
  pose proof (inside_mass sigma G Hs HG c (116 / 10) b Hc HS ltac:(lra) Hb ltac:(lra)) as I.
  assert (W : full_dgaussian_weights sigma b <= 63 / 10 ^ 31).
  { eapply Rle_trans; [|apply exp_tail]. unfold full_dgaussian_weights. apply exp_le.
    apply (Rmult_le_reg_r (2 * (sigma * sigma))); [nra|]. replace (- (IZR b * IZR b) / (2 * (sigma * sigma)) * (2 * (sigma * sigma))) with (- (IZR b * IZR b)) by (field; lra).
    assert (116 / 10 * sigma * (116 / 10 * sigma) <= IZR b * IZR b) by (apply Rmult_le_compat; lra). lra. }
  pose proof (R (IZR b)). pose proof (R (IZR (- b - 1))). assert (C1 : c * sigma <= 10 / 11) by lra.
  assert (CS : 0 < c * sigma) by (apply Rmult_lt_0_compat; assumption).
  replace (c * (sigma / (116 / 10))) with (10 / 116 * (c * sigma)) in * by (field; lra).
  set (W' := full_dgaussian_weights sigma b) in *. assert (10 / 116 * (c * sigma) * W' <= 10 / 116 * (10 / 11) * (63 / 10 ^ 31)).
  { apply Rmult_le_compat; try lra. left. apply exp_pos. }
  lra.
Qed.

(** ** Noise that is another noise up to a small mass *)
Section Part.
  Variables (F G : R -> R) (tau : R).
  Hypothesis HF : is_cdf F.
  Hypothesis HG : is_cdf G.
  Hypothesis Ht : 0 <= tau <= 1.
  Hypothesis D : forall x y, x <= y -> (1 - tau) * (F y - F x) <= G y - G x.
  Definition part_of (P Q : R -> R) := forall x y, xleb x y = true -> (1 - tau) * (at_end P y - at_end P x) <= at_end Q y - at_end Q x.
  Lemma part_end : part_of F G.
  Proof.
    pose proof HF as (RF & MF & LF & UF). pose proof HG as (RG & MG & _).
    intros x y L. destruct x as [a| | |], y as [b| | |]; cbn in L; try discriminate; cbn [at_end].
    - apply D. destruct (Rleb_spec a b); [assumption | discriminate].
    - apply Rnot_lt_le. intros X. destruct (UF ((1 - tau) * (1 - F a) - (1 - G a)) ltac:(lra)) as [z Hz].
      specialize (D a (Rmax a z) (Rmax_l _ _)). pose proof (MF z (Rmax a z) (Rmax_r _ _)). pose proof (RG (Rmax a z)). pose proof (RF (Rmax a z)). nra.
    - lra.
    - apply Rnot_lt_le. intros X. destruct (LF ((1 - tau) * (F b) - G b) ltac:(lra)) as [z Hz].
      specialize (D (Rmin b z) b (Rmin_l _ _)). pose proof (MF (Rmin b z) z (Rmin_r _ _)). pose proof (RG (Rmin b z)). pose proof (RF (Rmin b z)). nra.
    - lra.
    - lra.
  Qed.
End Part.
