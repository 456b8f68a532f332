(** The Gaussian mechanism with the scale of the textbook. *)
From Verif Require Import Base XReal TypesAdjacency TypesMean SpecDP SpecMech SpecMean ProofDP ProofShape ProofPeak ProofNoise ProofShapeGauss ProofTv ProofSvtDp ProofClasses ProofAdditive.
Local Open Scope R_scope.

Lemma normal_zero Phi : normal_cdf Phi -> Phi 0 = 1 / 2.
Proof. intros HP. pose proof (normal_mirror Phi HP 0) as M. rewrite Ropp_0 in M. lra. Qed.
Lemma normal_tail Phi t : normal_cdf Phi -> 0 <= t -> Phi (- t) <= exp (- (t * t) / 2) / 2.
Proof.
  intros HP Ht. pose proof (normal_zero Phi HP) as Z0. destruct HP as ((B & M & L & U) & c & Hc & D).
  set (g := fun t => exp (- (t * t) / 2) / 2 - Phi (- t)).
  assert (DG : forall z, derivable_pt_lim g z (exp (- (z * z) / 2) * (c - z / 2))).
  { intros z. replace (exp (- (z * z) / 2) * (c - z / 2)) with (exp (- (z * z) / 2) * - z * (/ 2) + exp (- (z * z) / 2) / 2 * 0 * 0 - c * exp (- (- z * - z) / 2) * -1).
    2:{ replace (- z * - z) with (z * z) by ring. field. }
    apply derivable_pt_lim_minus.
    - replace (exp (- (z * z) / 2) * - z * (/ 2) + exp (- (z * z) / 2) / 2 * 0 * 0) with (/ 2 * (exp (- (z * z) / 2) * - z)) by ring.
      intros e He. destruct (derivable_pt_lim_scal (fun t => exp (- (t * t) / 2)) (/ 2) z (exp (- (z * z) / 2) * - z)) with (eps := e) as [dl Hd]; [|exact He|].
      + apply (derivable_pt_lim_comp (fun t => - (t * t) / 2) exp z (- z)); [|apply derivable_pt_lim_exp].
        intros r Hr. exists (mkposreal r Hr). intros h Hh Hl. cbn in Hl. replace ((- ((z + h) * (z + h)) / 2 - - (z * z) / 2) / h - - z) with (- h / 2) by (field; exact Hh).
        unfold Rdiv. rewrite Rabs_mult, Rabs_Ropp, (Rabs_right (/ 2)) by lra. pose proof (Rabs_pos h). lra.
      + exists dl. intros h Hh Hl. specialize (Hd h Hh Hl). unfold mult_real_fct in Hd.
        replace (exp (- ((z + h) * (z + h)) / 2) / 2 - exp (- (z * z) / 2) / 2) with (/ 2 * exp (- ((z + h) * (z + h)) / 2) - / 2 * exp (- (z * z) / 2)) by field. exact Hd.
    - apply (derivable_pt_lim_comp Ropp Phi z (-1)); [|apply D]. replace (-1) with (- (1)) by ring. apply (derivable_pt_lim_opp id z 1), derivable_pt_lim_id. }
  enough (0 <= g t) by (unfold g in *; lra).
  destruct (Rle_dec t (2 * c)) as [K|K].
  - assert (G0 : g 0 = 0) by (unfold g; rewrite Ropp_0, Z0; replace (- (0 * 0) / 2) with 0 by lra; rewrite exp_0; lra).
    rewrite <- G0. apply (deriv_nonneg g (fun z => exp (- (z * z) / 2) * (c - z / 2)) 0 t DG Ht). intros z Hz.
    apply Rmult_le_pos; [left; apply exp_pos | lra].
  - apply Rnot_lt_le. intros N. destruct (L (- g t) ltac:(lra)) as [y Hy]. set (T := Rmax t (- y)).
    pose proof (Rmax_l t (- y)) as T1. pose proof (Rmax_r t (- y)) as T2. fold T in T1, T2.
    assert (G : g T <= g t).
    { apply (deriv_nonpos g (fun z => exp (- (z * z) / 2) * (c - z / 2)) t T DG T1). intros z Hz. pose proof (exp_pos (- (z * z) / 2)). nra. }
    unfold g in G at 1. pose proof (M (- T) y ltac:(lra)). pose proof (exp_pos (- (T * T) / 2)). lra.
Qed.

Lemma gaussian_factor_sq delta : 0 < delta <= 1 -> 0 < gaussian_factor delta /\ gaussian_factor delta * gaussian_factor delta = 2 * ln (5 / 4 / delta)
  /\ 2 / 5 <= gaussian_factor delta * gaussian_factor delta /\ delta = 5 / 4 * exp (- (gaussian_factor delta * gaussian_factor delta) / 2).
Proof.
  intros H. assert (Q : 5 / 4 <= 5 / 4 / delta).
  { apply (Rmult_le_reg_r delta); [lra|]. unfold Rdiv at 2. rewrite Rmult_assoc, Rinv_l; lra. }
  assert (L : 1 / 5 <= ln (5 / 4 / delta)).
  { apply Rle_trans with (ln (5 / 4)).
    - assert (1 - / (5 / 4) <= ln (5 / 4)); [|lra]. pose proof (exp_ineq1_le (- ln (5 / 4))) as E. rewrite exp_Ropp, exp_ln in E by lra. lra.
    - destruct Q as [Q|Q]; [left; apply ln_increasing; lra | right; f_equal; exact Q]. }
  unfold gaussian_factor. assert (S : sqrt (2 * ln (5 / 4 / delta)) * sqrt (2 * ln (5 / 4 / delta)) = 2 * ln (5 / 4 / delta)) by (apply sqrt_sqrt; lra).
  rewrite S. split; [apply sqrt_lt_R0; lra|]. split; [reflexivity|]. split; [lra|].
  replace (- (2 * ln (5 / 4 / delta)) / 2) with (- ln (5 / 4 / delta)) by field. rewrite exp_Ropp, exp_ln by lra. field. lra.
Qed.

(** The probability that the privacy loss exceeds e. *)
Lemma textbook_tail Phi e delta : normal_cdf Phi -> 0 < e <= 1 -> 0 < delta <= 1 ->
  Phi (- (gaussian_factor delta - e / (2 * gaussian_factor delta))) <= delta.
Proof.
  intros HP He Hd. destruct (gaussian_factor_sq delta Hd) as (A0 & _ & A1 & A2). set (a := gaussian_factor delta) in *.
  destruct (Rle_dec 0 (a - e / (2 * a))) as [T|T].
  - eapply Rle_trans; [apply normal_tail; assumption|].
    assert (E : exp (- ((a - e / (2 * a)) * (a - e / (2 * a))) / 2) <= exp (e / 2) * exp (- (a * a) / 2)).
    { rewrite <- exp_plus. apply exp_le. replace ((a - e / (2 * a)) * (a - e / (2 * a))) with (a * a - e + e / (2 * a) * (e / (2 * a))) by (field; lra).
      pose proof (Rle_0_sqr (e / (2 * a))) as S. unfold Rsqr in S. lra. }
    assert (exp (e / 2) <= 5 / 2).
    { apply Rle_trans with (exp (1 / 2)); [apply exp_le; lra|]. assert (S : exp (1/2) * exp (1/2) = exp 1) by (rewrite <- exp_plus; f_equal; lra).
      pose proof exp_le_3. pose proof (exp_pos (1/2)). nra. }
    pose proof (exp_pos (- (a * a) / 2)). pose proof (exp_pos (e / 2)). nra.
  - assert (P1 : e / (2 * a) - a <= 1 / 5).
    { replace (e / (2 * a) - a) with ((e - 2 * (a * a)) / (2 * a)) by (field; lra).
      apply (Rmult_le_reg_r (2 * a)); [lra|]. unfold Rdiv. rewrite Rmult_assoc, Rinv_l by lra. assert (3 / 5 <= a) by nra. nra. }
    assert (a * a <= 1 / 2).
    { assert (K : a * a <= e / 2); [|lra]. apply Rnot_le_lt in T. apply (Rmult_lt_compat_r (2 * a)) in T; [|lra].
      replace ((a - e / (2 * a)) * (2 * a)) with (2 * (a * a) - e) in T by (field; lra). lra. }
    assert (15 / 16 <= delta). { rewrite A2. pose proof (exp_ineq1_le (- (a * a) / 2)). lra. }
    replace (- (a - e / (2 * a))) with (e / (2 * a) - a) by ring. pose proof (normal_zero Phi HP) as Z0.
    pose proof (normal_lip Phi 0 (e / (2 * a) - a) HP ltac:(lra)). lra.
Qed.

Lemma observe_ext P P' Q Q' cuts e d : (forall x, P x = P' x) -> (forall x, Q x = Q' x) -> dp (observe P Q cuts) e d -> dp (observe P' Q' cuts) e d.
Proof.
  intros EP EQ H S. specialize (H S). unfold ProbP, ProbQ in *. cbn [observe outcome outs prP prQ] in *.
  assert (A : forall X Y, (forall x : R, X x = Y x) -> rsum (fun c => at_end X (snd c) - at_end X (fst c)) (filter S (cells cuts)) = rsum (fun c => at_end Y (snd c) - at_end Y (fst c)) (filter S (cells cuts))).
  { intros X Y E. assert (W : forall o, at_end X o = at_end Y o) by (intros [z| | |]; cbn; auto). apply rsum_ext. intros o _. rewrite !W. reflexivity. }
  rewrite <- (A P P' EP), <- (A Q Q' EQ). exact H.
Qed.

Lemma gaussian_pair_dp Phi u v w e delta cuts : normal_cdf Phi -> 0 < w -> 0 < e <= 1 -> 0 < delta <= 1 ->
  gaussian_factor delta * Rabs (u - v) <= e * w -> StronglySorted Rlt cuts ->
  dp (observe (fun x => Phi ((x - u) / w)) (fun x => Phi ((x - v) / w)) cuts) e delta.
Proof.
  intros HP Hw He Hd Hdist HC. destruct (gaussian_factor_sq delta Hd) as (A0 & _). set (a := gaussian_factor delta) in *.
  set (s := e * w / a). assert (Hs : 0 < s) by (unfold s; apply Rdiv_lt_0_compat; [nra | exact A0]).
  set (F := gaussian_law Phi w).
  assert (DU : Rabs (u - v) <= s).
  { unfold s. apply (Rmult_le_reg_r a); [exact A0|]. unfold Rdiv. rewrite Rmult_assoc, Rinv_l by lra. lra. }
  assert (DR : divergence_is (remove_upper F 1 s) F e (hend (gap (remove_upper F 1 s) F (exp e)) (1 - exp e) (gaussian_peak w s e))).
  { apply divergence_peak. apply uni_peaked; [|apply gaussian_is_cdf; assumption | left; apply exp_pos|].
    - apply cdf_sampled; [lra | apply gaussian_is_cdf; assumption |]. apply (cdf_shift F s), gaussian_is_cdf; assumption.
    - destruct (gaussian_shape Phi w HP Hw s (Rlt_le _ _ Hs)) as (_ & _ & U). apply (uni_ext (fun x => F (x + s) - exp e * F x)); [|apply U].
      intros x. unfold gap, remove_upper, sampled. ring. }
  pose proof (delta_at_peak F s (gaussian_peak w s) _ _ (gaussian_fits Phi w s HP Hw Hs) 1 ltac:(lra) ADD e) as DA. cbn [upper_law lower_law] in DA.
  destruct (noisy_query_bounded any_value F (gaussian_family Phi w HP Hw) 1 s ltac:(lra) (Rlt_le _ _ Hs) Logic.I
    (observe (sampled 1 (add_noise F v) (add_noise F (v + (u - v)))) (add_noise F v) cuts) e _ _ (ex_intro _ v (ex_intro _ (u - v) (ex_intro _ cuts (conj Logic.I (conj Logic.I (conj DU (conj HC eq_refl))))))) DR DA) as (_ & D & _).
  assert (LE : hend (gap (remove_upper F 1 s) F (exp e)) (1 - exp e) (gaussian_peak w s e) <= delta).
  { unfold gaussian_peak. rewrite Reqb_false by lra. cbn [hend]. unfold gap, remove_upper, sampled.
    replace (- (1 / 2) * s - e * (w * w) / s + s) with (s / 2 - e * (w * w) / s) by lra.
    assert (E : F (s / 2 - e * (w * w) / s) = Phi (- (a - e / (2 * a)))).
    { unfold F, gaussian_law. f_equal. unfold s. field. repeat split; lra. }
    rewrite E. pose proof (textbook_tail Phi e delta HP He Hd) as T. fold a in T.
    destruct HP as ((B & _) & _). pose proof (B ((- (1 / 2) * s - e * (w * w) / s) / w)) as B0. fold F. unfold F at 2, gaussian_law. pose proof (exp_pos e). unfold F, gaussian_law. nra. }
  apply (observe_ext (sampled 1 (add_noise F v) (add_noise F (v + (u - v)))) (fun x => Phi ((x - u) / w)) (add_noise F v) (fun x => Phi ((x - v) / w))).
  - intros x. unfold sampled, add_noise, F, gaussian_law. replace (v + (u - v)) with u by ring. ring.
  - intros x. reflexivity.
  - intros S. specialize (D S). lra.
Qed.
