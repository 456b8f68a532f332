(** Renyi divergence of the Laplace mechanism, observed through arbitrary cells. *)
From Verif Require Import Base XReal SpecDP SpecRenyi SpecMech SpecNoiseAcc ProofDP ProofPeak ProofShape ProofRenyi ProofObserve ProofGaussRdp.
Local Arguments Rltb : simpl never.
Local Arguments Rleb : simpl never.
Local Arguments Reqb : simpl never.

Definition pieces (m : R) (g1 g2 g3 : R -> R) (z : R) : R := if Rltb z 0 then g1 z else if Rltb z m then g2 z else g3 z.
Lemma pieces_mono m g1 g2 g3 : 0 <= m -> g1 0 = g2 0 -> g2 m = g3 m ->
  (forall x y, x <= y -> y <= 0 -> g1 x <= g1 y) -> (forall x y, 0 <= x -> x <= y -> y <= m -> g2 x <= g2 y) ->
  (forall x y, m <= x -> x <= y -> g3 x <= g3 y) -> forall x y, x <= y -> pieces m g1 g2 g3 x <= pieces m g1 g2 g3 y.
Proof.
  intros Hm E1 E2 H1 H2 H3 x y L. unfold pieces.
  assert (D : forall u v, u < v \/ v <= u) by (intros; lra).
  assert (RT : forall u v, u < v -> Rltb u v = true) by (intros; apply Rltb_true; assumption).
  assert (RF : forall u v, v <= u -> Rltb u v = false) by (intros; apply Rltb_false; assumption).
  destruct (D x 0), (D y 0); try lra.
  - rewrite !RT by lra. apply H1; lra.
  - rewrite (RT x 0), (RF y 0) by lra. pose proof (H1 x 0 ltac:(lra) ltac:(lra)). destruct (D y m).
    + rewrite RT by lra. pose proof (H2 0 y ltac:(lra) ltac:(lra) ltac:(lra)). lra.
    + rewrite RF by lra. pose proof (H2 0 m ltac:(lra) ltac:(lra) ltac:(lra)). pose proof (H3 m y ltac:(lra) ltac:(lra)). lra.
  - rewrite (RF x 0), (RF y 0) by lra. destruct (D x m), (D y m); try lra.
    + rewrite !RT by lra. apply H2; lra.
    + rewrite RT, RF by lra. pose proof (H2 x m ltac:(lra) ltac:(lra) ltac:(lra)). pose proof (H3 m y ltac:(lra) ltac:(lra)). lra.
    + rewrite !RF by lra. apply H3; lra.
Qed.
Lemma exp_lin_deriv c k u x : derivable_pt_lim (fun z => c * exp (k * z + u)) x (c * k * exp (k * x + u)).
Proof.
  replace (c * k * exp (k * x + u)) with (c * (exp (k * x + u) * k)) by ring.
  apply (derivable_pt_lim_scal (fun z => exp (k * z + u)) c).
  apply (derivable_pt_lim_comp (fun z => k * z + u) exp x k); [|apply derivable_pt_lim_exp].
  intros e He. exists (mkposreal 1 Rlt_0_1). intros h Hh _. replace ((k * (x + h) + u - (k * x + u)) / h - k) with 0 by (field; lra).
  rewrite Rabs_R0. assumption.
Qed.
Lemma laplace_scale b x : 0 < b -> laplace_law b x = laplace_law 1 (x / b).
Proof.
  intros Hb. unfold laplace_law. assert (0 < / b) by (apply Rinv_0_lt_compat, Hb).
  destruct (Rltb_spec x 0) as [H0|H0].
  - rewrite Rltb_true by (unfold Rdiv; nra). f_equal. f_equal. field. lra.
  - rewrite Rltb_false by (unfold Rdiv; nra). f_equal. f_equal. f_equal. field. lra.
Qed.

(** The moment of order [a] at distance [mu]. *)
Definition laplace_moment (a mu : R) : R := (a * exp ((a - 1) * mu) + (a - 1) * exp (- a * mu)) / (2 * a - 1).
Lemma laplace_moment_mono a x y : 1 < a -> 0 <= x -> x <= y -> laplace_moment a x <= laplace_moment a y.
Proof.
  intros Ha Hx L. unfold laplace_moment. apply Rmult_le_compat_r; [left; apply Rinv_0_lt_compat; lra|].
  pose (h := fun z => a * exp ((a - 1) * z + 0) + (a - 1) * exp (- a * z + 0)).
  enough (h x <= h y) by (unfold h in *; rewrite !Rplus_0_r in *; assumption).
  apply (deriv_nonneg h (fun z => a * (a - 1) * exp ((a - 1) * z + 0) + (a - 1) * - a * exp (- a * z + 0))); [|assumption|].
  - intros z. apply (derivable_pt_lim_plus (fun z => a * exp ((a - 1) * z + 0)) (fun z => (a - 1) * exp (- a * z + 0))); apply exp_lin_deriv.
  - intros z Hz. assert (0 <= (2 * a - 1) * z) by (apply Rmult_le_pos; lra).
    assert (X : exp (- a * z + 0) <= exp ((a - 1) * z + 0)) by (apply exp_le; lra).
    assert (0 < a * (a - 1)) by (apply Rmult_lt_0_compat; lra). nra.
Qed.

Section Base.
  Context (a mu : R).
  Hypotheses (Ha : 1 < a) (Hmu : 0 <= mu).
  Notation L := (laplace_law 1).
  Notation K := (laplace_moment a mu).
  Let c2 := / 2 / (2 * a - 1).
  Definition M1 z := / 2 * exp (1 * z + - a * mu).
  Definition M2 z := c2 * exp ((2 * a - 1) * z + - a * mu) + (/ 2 * exp (- a * mu) - c2 * exp (- a * mu)).
  Definition M3 z := - / 2 * exp (-1 * z + a * mu) + K.
  Definition lap_M := pieces mu M1 M2 M3.
  Lemma c2_pos : 0 < c2.
  Proof. unfold c2. apply Rdiv_lt_0_compat; lra. Qed.
  Lemma M12 : M1 0 = M2 0.
  Proof. unfold M1, M2. replace (1 * 0 + - a * mu) with (- a * mu) by ring. replace ((2 * a - 1) * 0 + - a * mu) with (- a * mu) by ring. ring. Qed.
  Lemma M23 : M2 mu = M3 mu.
  Proof.
    unfold M2, M3, laplace_moment, c2. replace ((2 * a - 1) * mu + - a * mu) with ((a - 1) * mu) by ring.
    replace (-1 * mu + a * mu) with ((a - 1) * mu) by ring. field. lra.
  Qed.
  Lemma M1_deriv z : derivable_pt_lim M1 z (/ 2 * 1 * exp (1 * z + - a * mu)).
  Proof. apply exp_lin_deriv. Qed.
  Lemma M2_deriv z : derivable_pt_lim M2 z (/ 2 * exp ((2 * a - 1) * z + - a * mu)).
  Proof.
    replace (/ 2 * exp ((2 * a - 1) * z + - a * mu)) with (c2 * (2 * a - 1) * exp ((2 * a - 1) * z + - a * mu) + 0) by (unfold c2; field; lra).
    apply (derivable_pt_lim_plus (fun z => c2 * exp ((2 * a - 1) * z + - a * mu)) (fun _ => / 2 * exp (- a * mu) - c2 * exp (- a * mu)));
      [apply exp_lin_deriv | apply derivable_pt_lim_const].
  Qed.
  Lemma M3_deriv z : derivable_pt_lim M3 z (/ 2 * exp (-1 * z + a * mu)).
  Proof.
    replace (/ 2 * exp (-1 * z + a * mu)) with (- / 2 * -1 * exp (-1 * z + a * mu) + 0) by field.
    apply (derivable_pt_lim_plus (fun z => - / 2 * exp (-1 * z + a * mu)) (fun _ => K));
      [apply exp_lin_deriv | apply derivable_pt_lim_const].
  Qed.
  Lemma lap_M_mono x y : x <= y -> lap_M x <= lap_M y.
  Proof.
    apply pieces_mono; [assumption | apply M12 | apply M23 | | |]; intros u v; intros.
    - apply (deriv_nonneg M1 _ u v M1_deriv); [lra|]. intros z _. pose proof (exp_pos (1 * z + - a * mu)). lra.
    - apply (deriv_nonneg M2 _ u v M2_deriv); [lra|]. intros z _. pose proof (exp_pos ((2 * a - 1) * z + - a * mu)). lra.
    - apply (deriv_nonneg M3 _ u v M3_deriv); [lra|]. intros z _. pose proof (exp_pos (-1 * z + a * mu)). lra.
  Qed.
  Lemma lap_M_range x : 0 <= lap_M x <= K.
  Proof.
    split.
    - pose proof (lap_M_mono (Rmin x (-1)) x (Rmin_l _ _)) as H. eapply Rle_trans; [|exact H]. pose proof (Rmin_r x (-1)).
      unfold lap_M, pieces. rewrite Rltb_true by lra. unfold M1. pose proof (exp_pos (1 * Rmin x (-1) + - a * mu)). lra.
    - pose proof (lap_M_mono x (Rmax x (mu + 1)) (Rmax_l _ _)) as H. eapply Rle_trans; [exact H|]. pose proof (Rmax_r x (mu + 1)).
      unfold lap_M, pieces. rewrite !Rltb_false by lra. unfold M3. pose proof (exp_pos (-1 * Rmax x (mu + 1) + a * mu)). lra.
  Qed.
  Definition lap_d (z : R) : R := / (2 * 1) * exp (- Rabs z / 1).
  Lemma lap_tangent t x y : 0 < t -> x <= y -> tangent a t (L (y - mu) - L (x - mu)) (L y - L x) <= lap_M y - lap_M x.
  Proof.
    intros Ht Lxy. rewrite tangent_diff.
    pose (T := fun z => tangent a t (L (z - mu)) (L z)).
    assert (DT : forall z, derivable_pt_lim T z (tangent a t (lap_d (z - mu)) (lap_d z))).
    { intros z. apply (tangent_deriv a t (fun z => L (z - mu)) L); [|apply laplace_deriv; lra].
      replace (lap_d (z - mu)) with (lap_d ((z - mu) / 1) * / 1) by (unfold Rdiv; rewrite Rinv_1, !Rmult_1_r; reflexivity).
      pose proof (scaled_deriv L lap_d 1 mu z Rlt_0_1 (fun z => laplace_deriv 1 Rlt_0_1 z)) as S.
      intros e He. destruct (S e He) as [dl Hd]. exists dl. intros h Hh Hl. specialize (Hd h Hh Hl).
      unfold Rdiv in Hd at 1 2 3. rewrite !Rinv_1, !Rmult_1_r in Hd. rewrite Rinv_1, Rmult_1_r. exact Hd. }
    pose (G := pieces mu (fun z => M1 z - T z) (fun z => M2 z - T z) (fun z => M3 z - T z)).
    assert (EG : forall z, G z = lap_M z - T z).
    { intros z. unfold G, lap_M, pieces. destruct (Rltb z 0); [reflexivity|]. destruct (Rltb z mu); reflexivity. }
    enough (G x <= G y) by (rewrite !EG in *; unfold T in *; lra).
    assert (BD : forall z, tangent a t (lap_d (z - mu)) (lap_d z) <= / 2 * exp (a * - Rabs (z - mu) + (1 - a) * - Rabs z)).
    { intros z. unfold lap_d, Rdiv. rewrite !Rinv_1, !Rmult_1_r, tangent_scale. apply Rmult_le_compat_l; [lra|]. apply tangent_below; [lra | assumption]. }
    apply pieces_mono; [assumption | rewrite M12; reflexivity | rewrite M23; reflexivity | | | | assumption]; intros u v; intros.
    - apply (deriv_nonneg _ _ u v (fun z => derivable_pt_lim_minus M1 T z _ _ (M1_deriv z) (DT z))); [lra|]. intros z Hz.
      specialize (BD z). rewrite !Rabs_left1 in BD by lra. 
      replace (a * - - (z - mu) + (1 - a) * - - z) with (1 * z + - a * mu) in BD by ring. lra.
    - apply (deriv_nonneg _ _ u v (fun z => derivable_pt_lim_minus M2 T z _ _ (M2_deriv z) (DT z))); [lra|]. intros z Hz.
      specialize (BD z). rewrite (Rabs_left1 (z - mu)), (Rabs_right z) in BD by lra. 
      replace (a * - - (z - mu) + (1 - a) * - z) with ((2 * a - 1) * z + - a * mu) in BD by ring. lra.
    - apply (deriv_nonneg _ _ u v (fun z => derivable_pt_lim_minus M3 T z _ _ (M3_deriv z) (DT z))); [lra|]. intros z Hz.
      specialize (BD z). rewrite !Rabs_right in BD by lra. 
      replace (a * - (z - mu) + (1 - a) * - z) with (-1 * z + a * mu) in BD by ring. lra.
  Qed.
End Base.

(** P centred at v + d, Q at v, both with scale w. *)
Lemma laplace_moment_cells v d w a cuts : 0 < w -> 1 < a -> StronglySorted Rlt cuts ->
  let E := observe (fun x => laplace_law 1 ((x - (v + d)) / w)) (fun x => laplace_law 1 ((x - v) / w)) cuts in
  absolutely_continuous E /\ renyi_moment E a <= laplace_moment a (Rabs d / w).
Proof.
  intros Hw Ha HS E. set (mu := Rabs d / w).
  assert (Hi : 0 < / w) by (apply Rinv_0_lt_compat, Hw).
  assert (Hmu : 0 <= mu) by (apply Rmult_le_pos; [apply Rabs_pos | lra]).
  pose proof (laplace_is_cdf 1 Rlt_0_1) as HC.
  destruct (Rle_lt_dec 0 d) as [Hd|Hd].
  - apply (cells_moment _ _ (fun x => lap_M a mu ((x - v) / w)) (laplace_moment a mu) a); try assumption; try (apply (scaled_cdf (laplace_law 1) w); assumption).
    + intros x. apply lap_M_range; assumption.
    + intros x y Lx. apply lap_M_mono; try assumption. apply Rmult_le_compat_r; lra.
    + intros t Ht x y Lx.
      replace ((y - (v + d)) / w) with ((y - v) / w - mu) by (unfold mu; rewrite Rabs_right by lra; field; lra).
      replace ((x - (v + d)) / w) with ((x - v) / w - mu) by (unfold mu; rewrite Rabs_right by lra; field; lra).
      apply lap_tangent; try assumption. apply Rmult_le_compat_r; lra.
  - apply (cells_moment _ _ (fun x => laplace_moment a mu - lap_M a mu (- ((x - v) / w))) (laplace_moment a mu) a); try assumption; try (apply (scaled_cdf (laplace_law 1) w); assumption).
    + intros x. pose proof (lap_M_range a mu Ha Hmu (- ((x - v) / w))). lra.
    + intros x y Lx. assert ((x - v) / w <= (y - v) / w) by (apply Rmult_le_compat_r; lra).
      pose proof (lap_M_mono a mu Ha Hmu (- ((y - v) / w)) (- ((x - v) / w)) ltac:(lra)). lra.
    + intros t Ht x y Lx. assert ((x - v) / w <= (y - v) / w) by (apply Rmult_le_compat_r; lra).
      pose proof (lap_tangent a mu Ha Hmu t (- ((y - v) / w)) (- ((x - v) / w)) Ht ltac:(lra)) as T.
      rewrite (laplace_mirror 1 ((y - (v + d)) / w)), (laplace_mirror 1 ((x - (v + d)) / w)), (laplace_mirror 1 ((y - v) / w)), (laplace_mirror 1 ((x - v) / w)).
      replace (- ((y - (v + d)) / w)) with (- ((y - v) / w) - mu) by (unfold mu; rewrite Rabs_left by lra; field; lra).
      replace (- ((x - (v + d)) / w)) with (- ((x - v) / w) - mu) by (unfold mu; rewrite Rabs_left by lra; field; lra).
      match goal with |- ?A <= ?B => match type of T with ?C <= ?D => replace A with C by (unfold tangent; ring); replace B with D by ring end end. exact T.
Qed.
