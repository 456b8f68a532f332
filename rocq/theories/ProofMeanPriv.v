(** The guarantees of the mean mechanism. *)
From Verif Require Import Base XReal TypesMean SpecDP SpecMech SpecRun SpecMean ProofDP ProofShape ProofPeak ProofRun ProofSvtDp ProofSplit ProofGaussPair ProofMeanDp.
Local Open Scope R_scope.

Lemma noise_cdf delta F : noise_of delta F -> is_cdf F.
Proof.
  unfold noise_of. destruct (Reqb_spec delta 0) as [E0|N0]; intros H; [|apply H].
  destruct (laplace_is_cdf 1 ltac:(lra)) as (B & M & L & U). split; [intros x; rewrite H; apply B|]. split; [intros x y K; rewrite !H; apply M, K|].
  split; intros e He; [destruct (L e He) as [x Hx] | destruct (U e He) as [x Hx]]; exists x; rewrite H; exact Hx.
Qed.
Lemma noise_pair F delta u v w e cuts : noise_of delta F -> 0 < w -> 0 < e -> 0 <= delta <= 1 -> (0 < delta -> e <= 1) ->
  factor delta * Rabs (u - v) <= e * w -> StronglySorted Rlt cuts ->
  dp (observe (fun x => F ((x - u) / w)) (fun x => F ((x - v) / w)) cuts) e delta.
Proof.
  unfold noise_of, factor. destruct (Reqb_spec delta 0) as [->|N]; intros HF Hw He Hd H1 Hdist HC.
  - apply (observe_ext (fun x => laplace_law 1 ((x - u) / w)) _ (fun x => laplace_law 1 ((x - v) / w)) _); [intros; symmetry; apply HF | intros; symmetry; apply HF|].
    apply laplace_pair_dp; [exact Hw | lra | exact HC].
  - apply gaussian_pair_dp; try assumption; [split; [exact He | apply H1; lra] | lra].
Qed.
Lemma factor_pos delta : 0 <= delta <= 1 -> 0 < factor delta.
Proof. intros H. unfold factor. destruct (Reqb_spec delta 0); [lra|]. apply gaussian_factor_sq. lra. Qed.

Lemma bounded_gap c x y : Rabs (bounded c x - bounded c y) <= Rabs (mean_max c - mean_min c).
Proof.
  unfold bounded. assert (K : forall z, Rmin (mean_min c) (mean_max c) <= Rmin (Rmax z (mean_min c)) (mean_max c) <= mean_max c).
  { intros z. split; [|apply Rmin_r]. apply Rmin_glb; [|apply Rmin_r]. eapply Rle_trans; [apply Rmin_l | apply Rmax_r]. }
  pose proof (K x) as X. pose proof (K y) as Y. destruct (Rle_dec (mean_min c) (mean_max c)) as [L|L].
  - rewrite Rmin_left in X, Y by exact L. rewrite (Rabs_right (mean_max c - mean_min c)) by lra. apply Rabs_le. lra.
  - rewrite Rmin_right in X, Y by lra. replace (_ - _) with 0 at 1 by lra. rewrite Rabs_R0. apply Rabs_pos.
Qed.
Lemma replaced_sum c d d' : one_replaced d d' -> List.length d = List.length d' /\ (0 < List.length d)%nat /\ Rabs (rsum (bounded c) d - rsum (bounded c) d') <= Rabs (mean_max c - mean_min c).
Proof.
  intros (l & x & y & r & -> & ->). rewrite !app_length. cbn [List.length]. split; [reflexivity|]. split; [lia|].
  rewrite !rsum_app. cbn [rsum]. replace (_ - _) with (bounded c x - bounded c y) at 1 by ring. apply bounded_gap.
Qed.
Lemma added_sum c d d' : one_added d d' -> mean_min c <= 0 <= mean_max c -> List.length d' = S (List.length d) /\ Rabs (rsum (bounded c) d - rsum (bounded c) d') <= Rabs (mean_max c - mean_min c).
Proof.
  intros (l & x & r & -> & ->) H. rewrite !app_length. cbn [List.length]. split; [lia|]. rewrite !rsum_app. cbn [rsum].
  replace (_ - _) with (- bounded c x) at 1 by ring. rewrite Rabs_Ropp, (Rabs_right (mean_max c - mean_min c)) by lra.
  unfold bounded. pose proof (Rmin_r (Rmax x (mean_min c)) (mean_max c)).
  assert (mean_min c <= Rmin (Rmax x (mean_min c)) (mean_max c)) by (apply Rmin_glb; [apply Rmax_r | lra]). apply Rabs_le. lra.
Qed.
Lemma scale_enough A e n w S : 0 < e -> 0 < n -> 0 <= A -> Rabs S <= w -> Rmax (1 / 10 ^ 12) (A * w / e / n) * e >= A * Rabs (S / n).
Proof.
  intros He Hn HA HS. pose proof (Rmax_r (1 / 10 ^ 12) (A * w / e / n)) as M. apply Rle_ge.
  apply Rle_trans with (A * w / e / n * e); [|apply Rmult_le_compat_r; lra].
  replace (A * w / e / n * e) with (A * (w / n)) by (field; lra). apply Rmult_le_compat_l; [exact HA|].
  unfold Rdiv. rewrite Rabs_mult, (Rabs_right (/ n)) by (left; apply Rinv_0_lt_compat, Hn). apply Rmult_le_compat_r; [left; apply Rinv_0_lt_compat, Hn | exact HS].
Qed.

Section Priv.
  Context (F : R -> R) (c : mean_config).
  Hypotheses (HF : noise_of (mean_delta c) F) (He : 0 < mean_epsilon c) (Hd : 0 <= mean_delta c <= 1).

  (** Given a count [k] for which the two noise scales agree. *)
  Lemma given_dp d d' k cuts : (0 < mean_delta c -> epsilon_share c <= 1) ->
    Rabs (rsum (bounded c) d - rsum (bounded c) d') <= Rabs (mean_max c - mean_min c) ->
    (exists n, 0 < n /\ (if noised_mean c then k else INR (List.length d)) = n /\ (if noised_mean c then k else INR (List.length d')) = n
      /\ (if noised_scale c then k else INR (List.length d)) = n /\ (if noised_scale c then k else INR (List.length d')) = n) ->
    StronglySorted Rlt cuts -> dp (observe (law_given F c d k) (law_given F c d' k) cuts) (epsilon_share c) (mean_delta c).
  Proof.
    intros H1 HS (n & Hn & E1 & E2 & E3 & E4) HC. pose proof (share_pos c He) as SP. unfold law_given.
    assert (SC : scale_given c d' k = scale_given c d k) by (unfold scale_given; rewrite E3, E4; reflexivity). rewrite SC.
    apply noise_pair; [exact HF | apply scale_pos | exact SP | exact Hd | exact H1 | | exact HC].
    unfold mean_given. rewrite E1, E2. unfold scale_given. rewrite E3.
    pose proof (scale_enough (factor (mean_delta c)) (epsilon_share c) n (Rabs (mean_max c - mean_min c)) _ SP Hn (Rlt_le _ _ (factor_pos _ Hd)) HS) as K.
    replace (rsum (bounded c) d / n - rsum (bounded c) d' / n) with ((rsum (bounded c) d - rsum (bounded c) d') / n) by (field; lra). lra.
  Qed.

  Lemma exact_one_way d d' P P' cuts : noised_mean c = false -> noised_scale c = false -> (0 < mean_delta c -> mean_epsilon c <= 1) ->
    one_replaced d d' -> mean_law F c d P -> mean_law F c d' P' -> StronglySorted Rlt cuts -> dp (observe P P' cuts) (mean_epsilon c) (mean_delta c).
  Proof.
    intros F1 F2 H1 R HP HP' HC. destruct (replaced_sum c d d' R) as (LE & LP & S).
    assert (SH : epsilon_share c = mean_epsilon c) by (unfold epsilon_share; rewrite F1, F2; reflexivity).
    assert (G : forall k, dp (observe (law_given F c d k) (law_given F c d' k) cuts) (mean_epsilon c) (mean_delta c)).
    { intros k. rewrite <- SH. apply given_dp; [rewrite SH; exact H1 | exact S | | exact HC]. exists (INR (List.length d)). rewrite F1, F2, <- LE.
      split; [apply lt_0_INR, LP|]. repeat split; reflexivity. }
    pose proof (mean_dp F c (noise_cdf _ _ HF) He d d' P P' 0 (mean_epsilon c) (mean_delta c) (mean_delta c) cuts HP HP' HC) as M.
    rewrite Rplus_0_l in M.
    replace (mean_delta c) with (mean_delta c * (1 - laplace_law (1 / epsilon_share c) (- INR (List.length d))) + mean_delta c * laplace_law (1 / epsilon_share c) (- INR (List.length d))) by ring.
    apply M; [intros k; rewrite exp_0, LE; lra | intros k _; apply G | intros k _; apply G].
  Qed.
  (** A negative count. *)
  Lemma negative_count n : laplace_law (1 / epsilon_share c) (- INR n) = exp (- (INR n * epsilon_share c)) / 2.
  Proof.
    pose proof (share_pos c He) as SP. assert (0 < 1 / epsilon_share c) by (apply Rdiv_lt_0_compat; lra). pose proof (pos_INR n) as PN. unfold laplace_law.
    destruct (Rltb_spec (- INR n) 0) as [N|N].
    - f_equal. f_equal. field. lra.
    - replace (INR n) with 0 by lra. rewrite Ropp_0. replace (- 0 / (1 / epsilon_share c)) with 0 by (field; lra). replace (- (0 * epsilon_share c)) with 0 by ring. rewrite exp_0. lra.
  Qed.
  Lemma noised_one_way d d' P P' e1 cuts : noised_mean c = true -> noised_scale c = true -> (0 < mean_delta c -> mean_epsilon c <= 2) ->
    Rabs (rsum (bounded c) d - rsum (bounded c) d') <= Rabs (mean_max c - mean_min c) ->
    Rabs (INR (List.length d) - INR (List.length d')) * epsilon_share c <= e1 ->
    mean_law F c d P -> mean_law F c d' P' -> StronglySorted Rlt cuts ->
    dp (observe P P' cuts) (e1 + mean_epsilon c / 2) (mean_delta c + exp (- (INR (List.length d) * (mean_epsilon c / 2))) / 2).
  Proof.
    intros F1 F2 H1 S L HP HP' HC. pose proof (share_pos c He) as SP.
    assert (SH : epsilon_share c = mean_epsilon c / 2) by (unfold epsilon_share; rewrite F1; reflexivity).
    assert (M : dp (observe P P' cuts) (e1 + mean_epsilon c / 2) (mean_delta c * (1 - laplace_law (1 / epsilon_share c) (- INR (List.length d))) + 1 * laplace_law (1 / epsilon_share c) (- INR (List.length d)))).
    { apply (mean_dp F c (noise_cdf _ _ HF) He d d' P P' e1 (mean_epsilon c / 2) 1 (mean_delta c) cuts HP HP' HC).
      - intros k. unfold laplace_density. pose proof (b_pos c He) as BP. set (b := 1 / epsilon_share c) in *.
        assert (Eb : / b = epsilon_share c) by (unfold b; field; lra).
        replace (exp e1 * (exp (- Rabs (k - INR (List.length d')) / b) / (2 * b))) with (exp e1 * exp (- Rabs (k - INR (List.length d')) / b) / (2 * b)) by (field; lra).
        apply Rmult_le_compat_r; [left; apply Rinv_0_lt_compat; lra|]. rewrite <- exp_plus. apply exp_le. unfold Rdiv. rewrite Eb.
        assert (T : Rabs (k - INR (List.length d')) <= Rabs (k - INR (List.length d)) + Rabs (INR (List.length d) - INR (List.length d'))).
        { replace (k - INR (List.length d')) with ((k - INR (List.length d)) + (INR (List.length d) - INR (List.length d'))) by ring. apply Rabs_triang. }
        apply (Rmult_le_compat_r (epsilon_share c)) in T; [|lra]. lra.
      - intros k Hk. apply dp_one; [apply law_given_cdf, (noise_cdf _ _ HF) | apply law_given_cdf, (noise_cdf _ _ HF) | exact HC].
      - intros k Hk. rewrite <- SH. apply given_dp; [rewrite SH; intros D; specialize (H1 D); lra | exact S | | exact HC].
        exists k. rewrite F1, F2. repeat split; exact Hk. }
    rewrite negative_count, SH in M. intros E. specialize (M E). pose proof (exp_pos (- (INR (List.length d) * (mean_epsilon c / 2)))) as PX. cbn [observe] in M |- *.
    set (X := exp (- (INR (List.length d) * (mean_epsilon c / 2)))) in *. assert (0 <= mean_delta c * (X / 2)) by (apply Rmult_le_pos; lra). lra.
  Qed.
End Priv.

Lemma mean_exact F c d d' P P' cuts : noise_of (mean_delta c) F -> 0 < mean_epsilon c -> 0 <= mean_delta c <= 1 -> (0 < mean_delta c -> mean_epsilon c <= 1) ->
  noised_mean c = false -> noised_scale c = false -> one_replaced d d' -> mean_law F c d P -> mean_law F c d' P' -> StronglySorted Rlt cuts ->
  valid (observe P P' cuts) /\ dp_both (observe P P' cuts) (mean_epsilon c) (mean_delta c).
Proof.
  intros HF He Hd H1 F1 F2 R HP HP' HC. split; [apply (observe_law_valid F c (noise_cdf _ _ HF) He d d'); assumption|].
  split; [apply (exact_one_way F c HF He Hd d d'); assumption|]. rewrite swap_observe.
  apply (exact_one_way F c HF He Hd d' d); try assumption. apply one_replaced_sym, R.
Qed.
Lemma mean_noised F c d d' P P' cuts : noise_of (mean_delta c) F -> 0 < mean_epsilon c -> 0 <= mean_delta c <= 1 -> (0 < mean_delta c -> mean_epsilon c <= 2) ->
  noised_mean c = true -> noised_scale c = true -> mean_law F c d P -> mean_law F c d' P' -> StronglySorted Rlt cuts ->
  let delta := mean_delta c + exp (- (INR (List.length d) * mean_epsilon c / 2)) / 2 in
  valid (observe P P' cuts)
  /\ (one_replaced d d' -> dp_both (observe P P' cuts) (mean_epsilon c / 2) delta)
  /\ (one_added d d' -> mean_min c <= 0 <= mean_max c -> dp_both (observe P P' cuts) (mean_epsilon c) delta).
Proof.
  intros HF He Hd H1 F1 F2 HP HP' HC. cbn zeta. replace (INR (List.length d) * mean_epsilon c / 2) with (INR (List.length d) * (mean_epsilon c / 2)) by field.
  assert (SH : epsilon_share c = mean_epsilon c / 2) by (unfold epsilon_share; rewrite F1; reflexivity).
  split; [apply (observe_law_valid F c (noise_cdf _ _ HF) He d d'); assumption|]. split.
  - intros R. destruct (replaced_sum c d d' R) as (LE & LP & S). replace (mean_epsilon c / 2) with (0 + mean_epsilon c / 2) at 1 by ring.
    split; [|rewrite swap_observe, LE].
    + apply (noised_one_way F c HF He Hd d d'); try assumption. rewrite LE, Rminus_eq_0, Rabs_R0. lra.
    + apply (noised_one_way F c HF He Hd d' d); try assumption; [rewrite Rabs_minus_sym; exact S | rewrite LE, Rminus_eq_0, Rabs_R0; lra].
  - intros A HM. destruct (added_sum c d d' A HM) as (LE & S). replace (mean_epsilon c) with (mean_epsilon c / 2 + mean_epsilon c / 2) at 1 by field.
    assert (L1 : Rabs (INR (List.length d) - INR (List.length d')) = 1).
    { rewrite LE, S_INR. replace (_ - _) with (-1) by ring. rewrite Rabs_left; lra. }
    split; [|rewrite swap_observe].
    + apply (noised_one_way F c HF He Hd d d'); try assumption. rewrite L1. lra.
    + intros E. pose proof (noised_one_way F c HF He Hd d' d P' P (mean_epsilon c / 2) cuts F1 F2 H1 ltac:(rewrite Rabs_minus_sym; exact S) ltac:(rewrite Rabs_minus_sym, L1; lra) HP' HP HC E) as M.
      assert (exp (- (INR (List.length d') * (mean_epsilon c / 2))) <= exp (- (INR (List.length d) * (mean_epsilon c / 2)))); [|lra].
      apply exp_le. rewrite LE, S_INR. lra.
Qed.
