(** The Laplace and Gaussian distributions and the discrete Laplace distribution are noise
    families. *)
From Verif Require Import Base XReal SpecDP SpecMech ProofDP ProofPeak ProofNoise.
Local Arguments Rltb : simpl never.
Local Arguments Rleb : simpl never.
Local Arguments Reqb : simpl never.

(** ** Differentiable distribution functions *)
Lemma deriv_nonneg (H h : R -> R) x y : (forall z, derivable_pt_lim H z (h z)) -> x <= y ->
  (forall z, x <= z <= y -> 0 <= h z) -> H x <= H y.
Proof.
  intros D L P. destruct (Rle_lt_or_eq_dec x y L) as [L'| ->]; [|lra].
  destruct (MVT_cor2 H h x y L' (fun c _ => D c)) as (c & E & Hc). specialize (P c ltac:(lra)). nra.
Qed.
Lemma deriv_nonpos (H h : R -> R) x y : (forall z, derivable_pt_lim H z (h z)) -> x <= y ->
  (forall z, x <= z <= y -> h z <= 0) -> H y <= H x.
Proof.
  intros D L P. destruct (Rle_lt_or_eq_dec x y L) as [L'| ->]; [|lra].
  destruct (MVT_cor2 H h x y L' (fun c _ => D c)) as (c & E & Hc). specialize (P c ltac:(lra)). nra.
Qed.
Lemma deriv_shift F f s z : (forall z, derivable_pt_lim F z (f z)) -> derivable_pt_lim (fun x => F (x + s)) z (f (z + s)).
Proof.
  intros D e He. destruct (D (z + s) e He) as [d Hd]. exists d. intros h Hh Hl.
  replace (z + h + s) with (z + s + h) by lra. apply Hd; assumption.
Qed.
Lemma deriv_gap F f s t z : (forall z, derivable_pt_lim F z (f z)) ->
  derivable_pt_lim (fun x => F (x + s) - t * F x) z (f (z + s) - t * f z).
Proof.
  intros D. apply (derivable_pt_lim_minus (fun x => F (x + s)) (fun x => t * F x)); [apply deriv_shift, D|].
  apply (derivable_pt_lim_scal F t), D.
Qed.
Lemma deriv_uni F f s t p : (forall z, derivable_pt_lim F z (f z)) -> p <> NaN ->
  (forall x, xleb (Fin x) p = true -> t * f x <= f (x + s)) ->
  (forall x, xleb p (Fin x) = true -> f (x + s) <= t * f x) ->
  uni (fun x => F (x + s) - t * F x) p.
Proof.
  intros D N H1 H2. split; [assumption|]. split; intros x y L Hp.
  - apply (deriv_nonneg _ _ x y (fun z => deriv_gap F f s t z D) L). intros z Hz.
    specialize (H1 z). assert (xleb (Fin z) p = true) by (apply (xleb_trans _ (Fin y)); [apply xleb_fin; lra | assumption]). specialize (H1 H). lra.
  - apply (deriv_nonpos _ _ x y (fun z => deriv_gap F f s t z D) L). intros z Hz.
    specialize (H2 z). assert (xleb p (Fin z) = true) by (apply (xleb_trans _ (Fin x)); [assumption | apply xleb_fin; lra]). specialize (H2 H). lra.
Qed.

Lemma exp_le x y : x <= y -> exp x <= exp y.
Proof. intros [L| ->]; [left; apply exp_increasing, L | lra]. Qed.
(** exponential densities: the ratio of e^u(x+s) and e^u(x) *)
Lemma exp_ratio_ge c a b l : 0 <= c -> l <= a - b -> exp l * (c * exp b) <= c * exp a.
Proof.
  intros Hc L. replace (exp l * (c * exp b)) with (c * (exp l * exp b)) by ring. rewrite <- exp_plus.
  apply Rmult_le_compat_l; [assumption|]. apply exp_le. lra.
Qed.
Lemma exp_ratio_le c a b l : 0 <= c -> a - b <= l -> c * exp a <= exp l * (c * exp b).
Proof.
  intros Hc L. replace (exp l * (c * exp b)) with (c * (exp l * exp b)) by ring. rewrite <- exp_plus.
  apply Rmult_le_compat_l; [assumption|]. apply exp_le. lra.
Qed.

(** ** Laplace *)
Section Laplace.
  Variable b : R.
  Hypothesis Hb : 0 < b.

  Let f x := / (2 * b) * exp (- Rabs x / b).
  Lemma Rdiv_pos x : 0 <= x -> 0 <= x / b.
  Proof. intros H. apply Rmult_le_pos; [assumption | left; apply Rinv_0_lt_compat, Hb]. Qed.
  Lemma Rdiv_le x y : x <= y -> x / b <= y / b.
  Proof. intros H. apply Rmult_le_compat_r; [left; apply Rinv_0_lt_compat, Hb | assumption]. Qed.

  Lemma left_deriv z : derivable_pt_lim (fun x => exp (x / b) / 2) z (/ (2 * b) * exp (z / b)).
  Proof.
    replace (/ (2 * b) * exp (z / b)) with (exp (z / b) * (1 * / b) * / 2) by (field; lra).
    apply (derivable_pt_lim_mult (fun x => exp (x / b)) (fun _ => / 2) z (exp (z / b) * (1 * / b)) 0 ) || idtac.
    assert (D1 : derivable_pt_lim (fun x => x / b) z (1 * / b)).
    { pose proof (derivable_pt_lim_scal id (/ b) z 1 (derivable_pt_lim_id z)) as D. unfold mult_real_fct, id in D.
      replace (1 * / b) with (/ b * 1) by ring. intros e He. destruct (D e He) as [dl Hd]. exists dl. intros h Hh Hl. specialize (Hd h Hh Hl).
      replace ((z + h) / b - z / b) with (/ b * (z + h) - / b * z) by (unfold Rdiv; ring). assumption. }
    pose proof (derivable_pt_lim_comp (fun x => x / b) exp z (1 * / b) (exp (z / b)) D1 (derivable_pt_lim_exp (z / b))) as D2.
    pose proof (derivable_pt_lim_scal _ (/ 2) z _ D2) as D3. unfold mult_real_fct, comp in D3.
    replace (exp (z / b) * (1 * / b) * / 2) with (/ 2 * (exp (z / b) * (1 * / b))) by ring.
    intros e He. destruct (D3 e He) as [dl Hd]. exists dl. intros h Hh Hl. specialize (Hd h Hh Hl).
    replace (exp ((z + h) / b) / 2 - exp (z / b) / 2) with (/ 2 * exp ((z + h) / b) - / 2 * exp (z / b)) by (unfold Rdiv; ring). assumption.
  Qed.
  Lemma right_deriv z : derivable_pt_lim (fun x => 1 - exp (- x / b) / 2) z (/ (2 * b) * exp (- z / b)).
  Proof.
    intros e He. destruct (left_deriv (- z) e He) as [dl Hd]. exists dl. intros h Hh Hl.
    specialize (Hd (- h) ltac:(lra) ltac:(rewrite Rabs_Ropp; assumption)).
    replace (- z + - h) with (- (z + h)) in Hd by ring. rewrite <- (Rabs_Ropp) in Hd. rewrite <- Rabs_Ropp.
    replace (- ((1 - exp (- (z + h) / b) / 2 - (1 - exp (- z / b) / 2)) / h - / (2 * b) * exp (- z / b)))
      with (- ((exp (- (z + h) / b) / 2 - exp (- z / b) / 2) / - h - / (2 * b) * exp (- z / b))); [assumption|].
    field. lra.
  Qed.
  Lemma laplace_deriv z : derivable_pt_lim (laplace_law b) z (f z).
  Proof.
    unfold f. destruct (Rtotal_order z 0) as [N|[-> |P]].
    - rewrite Rabs_left by lra. rewrite Ropp_involutive. intros e He. destruct (left_deriv z e He) as [dl Hd].
      assert (0 < Rmin dl (- z)) by (apply Rmin_glb_lt; [apply dl | lra]). exists (mkposreal _ H). intros h Hh Hl. cbn in Hl.
      assert (Rabs h < dl) by (eapply Rlt_le_trans; [exact Hl | apply Rmin_l]).
      assert (Rabs h < - z) by (eapply Rlt_le_trans; [exact Hl | apply Rmin_r]).
      unfold laplace_law. rewrite !Rltb_true; [apply Hd; assumption | lra |]. destruct (Rabs_def2 _ _ H1). lra.
    - rewrite Rabs_R0. intros e He. destruct (left_deriv 0 e He) as [dl Hd]. destruct (right_deriv 0 e He) as [dr Hr].
      assert (0 < Rmin dl dr) by (apply Rmin_glb_lt; [apply dl | apply dr]). exists (mkposreal _ H). intros h Hh Hl. cbn in Hl.
      assert (Rabs h < dl) by (eapply Rlt_le_trans; [exact Hl | apply Rmin_l]).
      assert (Rabs h < dr) by (eapply Rlt_le_trans; [exact Hl | apply Rmin_r]).
      specialize (Hd h Hh H0). specialize (Hr h Hh H1). unfold laplace_law. rewrite (Rltb_false 0 0) by lra.
      destruct (Rltb_spec (0 + h) 0).
      + replace (1 - exp (- 0 / b) / 2) with (exp (0 / b) / 2).
        2: { unfold Rdiv. rewrite Ropp_0, !Rmult_0_l, exp_0. lra. }
        rewrite Ropp_0. exact Hd.
      + exact Hr.
    - rewrite Rabs_right by lra. intros e He. destruct (right_deriv z e He) as [dl Hd].
      assert (0 < Rmin dl z) by (apply Rmin_glb_lt; [apply dl | lra]). exists (mkposreal _ H). intros h Hh Hl. cbn in Hl.
      assert (Rabs h < dl) by (eapply Rlt_le_trans; [exact Hl | apply Rmin_l]).
      assert (Rabs h < z) by (eapply Rlt_le_trans; [exact Hl | apply Rmin_r]).
      unfold laplace_law. rewrite !Rltb_false; [apply Hd; assumption | lra |]. destruct (Rabs_def2 _ _ H1). lra.
  Qed.

  Lemma exp_unbounded e : 0 < e -> exists x, x < 0 /\ exp (x / b) < e.
  Proof.
    intros He. exists (b * (Rmin (ln e) 0 - 1)). split.
    - pose proof (Rmin_r (ln e) 0). nra.
    - replace (b * (Rmin (ln e) 0 - 1) / b) with (Rmin (ln e) 0 - 1) by (field; lra).
      apply (Rlt_le_trans _ (exp (ln e))); [|rewrite exp_ln; lra]. apply exp_increasing. pose proof (Rmin_l (ln e) 0). lra.
  Qed.
  Lemma laplace_mirror x : laplace_law b x = 1 - laplace_law b (- x).
  Proof.
    unfold laplace_law. destruct (Rltb_spec x 0), (Rltb_spec (- x) 0); try lra.
    - rewrite Ropp_involutive. lra.
    - assert (x = 0) as -> by lra. unfold Rdiv. rewrite !Ropp_0, !Rmult_0_l, exp_0. lra.
  Qed.
  Lemma laplace_is_cdf : is_cdf (laplace_law b).
  Proof.
    assert (B : forall x, 0 <= laplace_law b x <= 1).
    { intros x. unfold laplace_law. destruct (Rltb_spec x 0).
      - pose proof (exp_pos (x / b)). assert (exp (x / b) <= exp 0) by (apply exp_le; apply (Rmult_le_reg_r b); [lra|]; unfold Rdiv; rewrite Rmult_assoc, Rinv_l; lra).
        rewrite exp_0 in *. lra.
      - pose proof (exp_pos (- x / b)). assert (exp (- x / b) <= exp 0) by (apply exp_le; apply (Rmult_le_reg_r b); [lra|]; unfold Rdiv; rewrite Rmult_assoc, Rinv_l; lra).
        rewrite exp_0 in *. lra. }
    assert (L : forall e, 0 < e -> exists x, laplace_law b x < e).
    { intros e He. destruct (exp_unbounded e He) as (x & Hx & E). exists x. unfold laplace_law. rewrite Rltb_true by lra.
      pose proof (exp_pos (x / b)). lra. }
    split; [assumption|]. split; [|split; [assumption|]].
    - intros x y H. apply (deriv_nonneg _ f); [apply laplace_deriv | assumption|]. intros z _. unfold f.
      apply Rmult_le_pos; [left; apply Rinv_0_lt_compat; lra | left; apply exp_pos].
    - intros e He. destruct (L e He) as [x Hx]. exists (- x). rewrite laplace_mirror, Ropp_involutive. lra.
  Qed.

  Definition laplace_peak (s l : R) : xr :=
    if Rltb s (l * b) then MInf else if Rleb (l * b) (- s) then PInf else Fin (1/2 * (- s - l * b)).
  (** the privacy loss, compared with l *)
  Lemma laplace_loss_left s l x : 0 <= s -> xleb (Fin x) (laplace_peak s l) = true -> l * b <= Rabs x - Rabs (x + s).
  Proof.
    intros Hs. unfold laplace_peak. destruct (Rltb_spec s (l * b)); [discriminate|].
    destruct (Rleb_spec (l * b) (- s)); intros H.
    - unfold Rabs. destruct (Rcase_abs x), (Rcase_abs (x + s)); lra.
    - apply xleb_fin in H. unfold Rabs. destruct (Rcase_abs x), (Rcase_abs (x + s)); lra.
  Qed.
  Lemma laplace_loss_right s l x : 0 <= s -> xleb (laplace_peak s l) (Fin x) = true -> Rabs x - Rabs (x + s) <= l * b.
  Proof.
    intros Hs. unfold laplace_peak. destruct (Rltb_spec s (l * b)).
    - intros _. unfold Rabs. destruct (Rcase_abs x), (Rcase_abs (x + s)); lra.
    - destruct (Rleb_spec (l * b) (- s)); intros H; [discriminate|].
      apply xleb_fin in H. unfold Rabs. destruct (Rcase_abs x), (Rcase_abs (x + s)); lra.
  Qed.
  Lemma laplace_shape s : 0 <= s -> shape (laplace_law b) s (laplace_peak s).
  Proof.
    intros Hs. split; [apply laplace_is_cdf|]. split; [assumption|]. intros l.
    assert (C : 0 <= / (2 * b)) by (left; apply Rinv_0_lt_compat; lra).
    apply (deriv_uni _ f); [apply laplace_deriv | unfold laplace_peak; destruct (Rltb s (l * b)); [|destruct (Rleb (l * b) (- s))]; discriminate | |].
    - intros x H. apply laplace_loss_left in H; [|assumption]. unfold f. apply exp_ratio_ge; [assumption|].
      replace (- Rabs (x + s) / b - - Rabs x / b) with ((Rabs x - Rabs (x + s)) / b) by (field; lra).
      apply (Rmult_le_reg_r b); [lra|]. unfold Rdiv. rewrite Rmult_assoc, Rinv_l; lra.
    - intros x H. apply laplace_loss_right in H; [|assumption]. unfold f. apply exp_ratio_le; [assumption|].
      replace (- Rabs (x + s) / b - - Rabs x / b) with ((Rabs x - Rabs (x + s)) / b) by (field; lra).
      apply (Rmult_le_reg_r b); [lra|]. unfold Rdiv. rewrite Rmult_assoc, Rinv_l; lra.
  Qed.
  Lemma laplace_family : noise_family any_value (laplace_law b).
  Proof.
    split; [intros s Hs _; exists (laplace_peak s); apply laplace_shape, Hs|]. split; [|split; [|split]]; try (intros; exact Logic.I).

    exists Ropp. split; [intros; lra|]. split; [apply laplace_mirror | intros; lra].
  Qed.
End Laplace.
