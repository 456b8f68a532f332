(** The privacy of the mean mechanism. *)
From Verif Require Import Base XReal TypesMean SpecDP SpecMech SpecNoiseAcc SpecRun SpecMean ProofDP ProofShape ProofPeak ProofNoise ProofLapRdp ProofRun ProofSvtDp ProofSplit.
Local Open Scope R_scope.

(** The distribution of the result when the noisy count is [k]. *)
Definition law_given (F : R -> R) (c : mean_config) (data : list R) (k x : R) : R :=
  F ((x - mean_given c data k) / scale_given c data k).

Lemma share_pos c : 0 < mean_epsilon c -> 0 < epsilon_share c.
Proof. unfold epsilon_share. destruct (noised_mean c), (noised_scale c); lra. Qed.
Lemma scale_pos c data k : 0 < scale_given c data k.
Proof. unfold scale_given. eapply Rlt_le_trans; [|apply Rmax_l]. assert (0 < 10 ^ 12) by (apply pow_lt; lra). apply Rdiv_lt_0_compat; lra. Qed.
Lemma law_given_cdf F c data k : is_cdf F -> is_cdf (law_given F c data k).
Proof.
  intros HF. assert (S := scale_pos c data k). destruct HF as (B & M & L & U). unfold law_given.
  assert (Q : forall x y, (x * scale_given c data k + y - y) / scale_given c data k = x) by (intros; field; lra).
  split; [intros; apply B|]. split; [|split].
  - intros x y H. apply M. unfold Rdiv. apply Rmult_le_compat_r; [left; apply Rinv_0_lt_compat, S | lra].
  - intros e He. destruct (L e He) as [x Hx]. exists (x * scale_given c data k + mean_given c data k). rewrite Q. exact Hx.
  - intros e He. destruct (U e He) as [x Hx]. exists (x * scale_given c data k + mean_given c data k). rewrite Q. exact Hx.
Qed.

Section Law.
  Context (F : R -> R) (c : mean_config).
  Hypotheses (HF : is_cdf F) (He : 0 < mean_epsilon c).
  Notation b := (1 / epsilon_share c).
  Lemma b_pos : 0 < b.
  Proof. pose proof (share_pos c He). apply Rdiv_lt_0_compat; lra. Qed.

  Lemma end_split data P x : mean_law F c data P ->
    integral_split 0 (fun k => laplace_density b (k - INR (List.length data)) * at_end (law_given F c data k) x) (at_end P x).
  Proof.
    intros H. destruct x as [x| | |]; cbn [at_end].
    - apply H.
    - apply (split_ext (fun k => laplace_density b (k - INR (List.length data)))); [intros; ring|]. apply density_split, b_pos.
    - apply (split_ext (fun _ => 0)); [intros; ring | apply split_zero].
    - apply (split_ext (fun _ => 0)); [intros; ring | apply split_zero].
  Qed.
  Definition event_chance (S : xr * xr -> bool) (cuts : list R) (P : R -> R) : R :=
    rsum (fun o => at_end P (snd o) - at_end P (fst o)) (filter S (cells cuts)).
  Lemma event_split data P S cuts : mean_law F c data P ->
    integral_split 0 (fun k => laplace_density b (k - INR (List.length data)) * event_chance S cuts (law_given F c data k)) (event_chance S cuts P).
  Proof.
    intros H. unfold event_chance.
    apply (split_ext (fun k => rsum (fun o => laplace_density b (k - INR (List.length data)) * at_end (law_given F c data k) (snd o)
                                              - laplace_density b (k - INR (List.length data)) * at_end (law_given F c data k) (fst o)) (filter S (cells cuts)))).
    { intros k _. rewrite <- rsum_scal. apply rsum_ext. intros o _. ring. }
    apply (split_rsum (fun o k => _) (fun o => _)). intros o _. apply split_minus; apply end_split, H.
  Qed.
  Lemma event_bounds S cuts P : is_cdf P -> StronglySorted Rlt cuts -> 0 <= event_chance S cuts P <= 1.
  Proof.
    intros HP HC. assert (N : forall o, In o (cells cuts) -> 0 <= at_end P (snd o) - at_end P (fst o)).
    { intros o Ho. pose proof (at_end_mono P HP _ _ (cells_ordered cuts HC o Ho)). lra. }
    split.
    - apply rsum_nonneg. intros o Ho. apply filter_In in Ho. apply N, Ho.
    - replace 1 with (rsum (fun o => at_end P (snd o) - at_end P (fst o)) (cells cuts)).
      2:{ rewrite (cells_telescope (at_end P)). cbn [at_end]. ring. }
      unfold event_chance. revert N. induction (cells cuts) as [|o l IH]; intros N; cbn [filter rsum]; [lra|].
      pose proof (N o ltac:(left; reflexivity)). specialize (IH ltac:(intros; apply N; right; assumption)).
      destruct (S o); cbn [rsum]; lra.
  Qed.

  (** The law is a distribution function. *)
  Lemma law_bounds data P x : mean_law F c data P -> 0 <= P x <= 1.
  Proof.
    intros H. destruct HF as (B & _). pose proof (density_split b (INR (List.length data)) b_pos) as D. split.
    - pose proof (split_le (fun _ => 0) _ 0 (P x) 1 split_zero (H x)) as L. rewrite Rmult_1_l in L. apply L.
      intros k _. rewrite Rmult_1_l. apply Rmult_le_pos; [left; apply density_pos, b_pos | apply B].
    - pose proof (split_le _ _ (P x) 1 1 (H x) D) as L. rewrite Rmult_1_l in L. apply L.
      intros k _. pose proof (density_pos b (k - INR (List.length data)) b_pos). pose proof (B ((x - mean_given c data k) / scale_given c data k)). nra.
  Qed.
  Lemma law_mono data P x y : mean_law F c data P -> x <= y -> P x <= P y.
  Proof.
    intros H L. pose proof (split_le _ _ _ _ 1 (H x) (H y)) as Z. rewrite Rmult_1_l in Z. apply Z. intros k _. rewrite Rmult_1_l.
    apply Rmult_le_compat_l; [left; apply density_pos, b_pos|]. destruct (law_given_cdf F c data k HF) as (_ & M & _). apply M, L.
  Qed.
  Lemma observe_law_valid d d' P P' cuts : mean_law F c d P -> mean_law F c d' P' -> StronglySorted Rlt cuts -> valid (observe P P' cuts).
  Proof.
    intros H H' HC.
    assert (N : forall data Q o, mean_law F c data Q -> In o (cells cuts) -> 0 <= at_end Q (snd o) - at_end Q (fst o)).
    { intros data Q o HQ Ho. pose proof (cells_ordered cuts HC o Ho) as O. destruct o as [x y]. cbn [fst snd] in *.
      pose proof (fun z => law_bounds data Q z HQ) as B. destruct x as [x| | |], y as [y| | |]; cbn [at_end] in *; try discriminate O; try lra;
        try (pose proof (B x)); try (pose proof (B y)); try lra.
      apply xleb_fin in O. pose proof (law_mono data Q x y HQ O). lra. }
    split; [|split].
    - intros o Ho. split; [apply (N d P); assumption | apply (N d' P'); assumption].
    - exact (eq_trans (cells_telescope (at_end P) cuts) (Rminus_0_r 1)).
    - exact (eq_trans (cells_telescope (at_end P') cuts) (Rminus_0_r 1)).
  Qed.

  (** From the conditional to the total guarantee. *)
  Lemma mean_dp d d' P P' e1 e2 delta0 delta cuts : mean_law F c d P -> mean_law F c d' P' -> StronglySorted Rlt cuts ->
    (forall k, laplace_density b (k - INR (List.length d)) <= exp e1 * laplace_density b (k - INR (List.length d'))) ->
    (forall k, k < 0 -> dp (observe (law_given F c d k) (law_given F c d' k) cuts) e2 delta0) ->
    (forall k, 0 < k -> dp (observe (law_given F c d k) (law_given F c d' k) cuts) e2 delta) ->
    dp (observe P P' cuts) (e1 + e2) (delta * (1 - laplace_law b (- INR (List.length d))) + delta0 * laplace_law b (- INR (List.length d))).
  Proof.
    intros H H' HC R N0 N1 S.
    change (event_chance S cuts P <= exp (e1 + e2) * event_chance S cuts P' + (delta * (1 - laplace_law b (- INR (List.length d))) + delta0 * laplace_law b (- INR (List.length d)))).
    assert (C : forall dl k, dp (observe (law_given F c d k) (law_given F c d' k) cuts) e2 dl ->
      laplace_density b (k - INR (List.length d)) * event_chance S cuts (law_given F c d k)
      <= exp (e1 + e2) * (laplace_density b (k - INR (List.length d')) * event_chance S cuts (law_given F c d' k)) + dl * laplace_density b (k - INR (List.length d))).
    { intros dl k D. specialize (D S). change (event_chance S cuts (law_given F c d k) <= exp e2 * event_chance S cuts (law_given F c d' k) + dl) in D.
      specialize (R k). pose proof (density_pos b (k - INR (List.length d)) b_pos) as X. set (x := laplace_density b (k - INR (List.length d))) in *.
      pose proof (event_bounds S cuts (law_given F c d' k) (law_given_cdf F c d' k HF) HC) as B. pose proof (exp_pos e2).
      set (q := event_chance S cuts (law_given F c d' k)) in *. rewrite exp_plus.
      apply Rle_trans with (x * (exp e2 * q + dl)); [apply Rmult_le_compat_l; lra|].
      assert (x * (exp e2 * q) <= exp e1 * laplace_density b (k - INR (List.length d')) * (exp e2 * q)) by (apply Rmult_le_compat_r; [apply Rmult_le_pos; lra | exact R]). lra. }
    pose proof (split_compare _ _ _ _ _ _ 1 (exp (e1 + e2)) delta0 delta (event_split d P S cuts H) (event_split d' P' S cuts H') (density_prim b (INR (List.length d)) b_pos)
      (fun k Hk => C delta0 k (N0 k Hk)) (fun k Hk => C delta k (N1 k Hk))) as Z.
    cbn beta in Z. rewrite Rminus_0_l in Z. lra.
  Qed.
  (** Nothing is known for a negative count. *)
  Lemma dp_one (P Q : R -> R) e cuts : is_cdf P -> is_cdf Q -> StronglySorted Rlt cuts -> dp (observe P Q cuts) e 1.
  Proof.
    intros HP HQ HC S. change (event_chance S cuts P <= exp e * event_chance S cuts Q + 1).
    pose proof (event_bounds S cuts P HP HC). pose proof (event_bounds S cuts Q HQ HC). pose proof (exp_pos e). nra.
  Qed.
End Law.

(** Laplace noise around two values at a distance of at most [e] scales. *)
Lemma laplace_pair_dp u v w e cuts : 0 < w -> Rabs (u - v) <= e * w -> StronglySorted Rlt cuts ->
  dp (observe (fun x => laplace_law 1 ((x - u) / w)) (fun x => laplace_law 1 ((x - v) / w)) cuts) e 0.
Proof.
  intros Hw Hd HC. apply (pure_dp (cells cuts)). intros o Ho. pose proof (cells_ordered cuts HC o Ho) as O.
  set (P := fun x => laplace_law 1 ((x - u) / w)). set (Q := fun x => laplace_law 1 ((x - v) / w)).
  assert (M : forall x y, x <= y -> P y - P x <= exp e * (Q y - Q x)).
  { intros x y L. enough (exp e * Q x - P x <= exp e * Q y - P y) by lra.
    assert (D : forall r z, derivable_pt_lim (fun t => laplace_law 1 ((t - r) / w)) z (laplace_density 1 ((z - r) / w) * / w)).
    { intros r z. replace (laplace_density 1 ((z - r) / w)) with (/ (2 * 1) * exp (- Rabs ((z - r) / w) / 1)) by (unfold laplace_density; field).
      apply (derivable_pt_lim_comp (fun t => (t - r) / w) (laplace_law 1)); [|apply laplace_deriv; lra].
      replace (/ w) with ((1 - 0) * / w) by ring.
      replace ((1 - 0) * / w) with ((1 - 0) * / w + (z - r) * 0) by ring.
      apply (derivable_pt_lim_mult (fun t => t - r) (fun _ => / w)); [|apply derivable_pt_lim_const].
      apply derivable_pt_lim_minus; [apply derivable_pt_lim_id | apply derivable_pt_lim_const]. }
    apply (deriv_nonneg (fun z => exp e * Q z - P z) (fun z => exp e * (laplace_density 1 ((z - v) / w) * / w) - laplace_density 1 ((z - u) / w) * / w)); [|exact L|].
    - intros z. apply derivable_pt_lim_minus; [apply (derivable_pt_lim_scal Q (exp e)), D | apply D].
    - intros z _. enough (laplace_density 1 ((z - u) / w) <= exp e * laplace_density 1 ((z - v) / w)).
      { assert (0 < / w) by (apply Rinv_0_lt_compat, Hw). nra. }
      unfold laplace_density. enough (exp (- Rabs ((z - u) / w) / 1) <= exp e * exp (- Rabs ((z - v) / w) / 1)) by lra.
      rewrite <- exp_plus. apply exp_le.
      assert (Rabs ((z - v) / w) <= Rabs ((z - u) / w) + e); [|lra].
      replace ((z - v) / w) with ((z - u) / w + (u - v) / w) by (field; lra). eapply Rle_trans; [apply Rabs_triang|].
      enough (Rabs ((u - v) / w) <= e) by lra. unfold Rdiv. rewrite Rabs_mult, (Rabs_right (/ w)) by (left; apply Rinv_0_lt_compat, Hw).
      apply (Rmult_le_reg_r w); [exact Hw|]. rewrite Rmult_assoc, Rinv_l by lra. lra. }
  assert (HP : is_cdf P /\ is_cdf Q).
  { pose proof (laplace_is_cdf 1 ltac:(lra)) as L. split; apply (ProofGaussRdp.scaled_cdf (laplace_law 1)); assumption. }
  destruct HP as ((BP & MP & LP & UP) & (BQ & MQ & LQ & UQ)). pose proof (exp_pos e) as PE.
  (* the ends by limits *)
  assert (Lo : forall y, P y <= exp e * Q y).
  { intros y. apply le_eps. intros t Ht. destruct (LP t Ht) as [x Hx]. pose proof (Rmin_l x y). pose proof (Rmin_r x y).
    pose proof (MP (Rmin x y) x ltac:(lra)). pose proof (M (Rmin x y) y ltac:(lra)). pose proof (BQ (Rmin x y)). nra. }
  assert (Hi : forall x, 1 - P x <= exp e * (1 - Q x)).
  { intros x. apply le_eps. intros t Ht. destruct (UP t Ht) as [y Hy]. pose proof (Rmax_l x y). pose proof (Rmax_r x y).
    pose proof (MP y (Rmax x y) ltac:(lra)). pose proof (M x (Rmax x y) ltac:(lra)). pose proof (BQ (Rmax x y)). nra. }
  assert (1 <= exp e).
  { apply Rnot_lt_le. intros N. pose proof (Hi 0). pose proof (Lo 0). lra. }
  destruct o as [x y]. cbn [observe prP prQ fst snd] in *. destruct x as [x| | |], y as [y| | |]; cbn [at_end] in *; try discriminate O; try lra.
  - apply xleb_fin in O. apply M, O.
  - apply Hi.
  - rewrite !Rminus_0_r. apply Lo.
Qed.
