(** from_privacy_parameters. *)
From Verif Require Import Base XReal Exn PyDict TypesRelation ModelCommon ModelPmf ModelPld ModelMake
  SpecDP SpecPmf SpecPld SpecMake ProofDP ProofDict ProofPmf ProofCompose ProofCompose2 ProofPld
  ProofMake ProofTwo.

(** the curve of a pair as a function of t = e^eps *)
Lemma hs_convex E w t1 t2 : 0 <= w <= 1 ->
  hs E 1 (w * t1 + (1 - w) * t2) <= w * hs E 1 t1 + (1 - w) * hs E 1 t2.
Proof.
  intros Hw. rewrite <- !hs_scal by lra.
  eapply Rle_trans; [|apply hs_sub]. right. f_equal; lra.
Qed.
Lemma hs_mono E t1 t2 : valid E -> t1 <= t2 -> hs E 1 t2 <= hs E 1 t1.
Proof.
  intros (N & _) H. unfold hs. apply rsum_le. intros o Ho. apply pos_le. destruct (N o Ho). nra.
Qed.
Lemma hs_swap E t : valid E -> 0 < t -> hs E 1 t = 1 - t + t * hs (swap E) 1 (/ t).
Proof.
  intros (_ & S1 & S2) Ht. unfold hs. rewrite <- rsum_scal. cbn [swap prP prQ outs].
  transitivity (rsum (fun o => prP E o - t * prQ E o + t * pos (1 * prQ E o - / t * prP E o)) (outs E)).
  - apply rsum_ext. intros o _. rewrite <- pos_scal by lra.
    replace (t * (1 * prQ E o - / t * prP E o)) with (- (1 * prP E o - t * prQ E o)) by (field; lra).
    destruct (pos_case (1 * prP E o - t * prQ E o)) as [[? ->]|[? ->]],
      (pos_case (- (1 * prP E o - t * prQ E o))) as [[? ->]|[? ->]]; lra.
  - rewrite rsum_plus, rsum_minus, (rsum_scal t (prQ E)), S1, S2, Rmult_1_r. reflexivity.
Qed.

(** piecewise linear bound *)
Definition params_curve (eps delta e : R) : R :=
  delta + (1 - delta) / (1 + exp (- eps)) * pos (1 - exp (e - eps)) +
  (1 - delta) / (1 + exp eps) * pos (1 - exp (e - - eps)).

Lemma params_dominates E eps delta e : valid E -> 0 <= eps -> 0 <= delta <= 1 ->
  dp_both E eps delta -> hockey_stick E e <= params_curve eps delta e.
Proof.
  intros V He Hdl [H1 H2]. apply dp_iff_hockey in H1, H2. rewrite hockey_hs in *. unfold params_curve.
  set (a := exp eps) in *. set (t := exp e).
  assert (Ha : 1 <= a) by (unfold a; rewrite <- exp_0; apply exp_le; assumption).
  assert (Ht : 0 < t) by apply exp_pos.
  assert (Ei : exp (- eps) = / a) by (unfold a; apply exp_Ropp).
  assert (E1 : exp (e - eps) = t / a) by (unfold a, t; apply exp_minus).
  assert (E2 : exp (e - - eps) = t * a).
  { unfold a, t. rewrite <- exp_plus. f_equal. lra. }
  rewrite Ei, E1, E2.
  assert (Hia : / a <= 1) by (rewrite <- Rinv_1; apply Rinv_le_contravar; lra).
  assert (Hia0 : 0 < / a) by (apply Rinv_0_lt_compat; lra).
  assert (Eia : a * / a = 1) by (field; lra).
  assert (H3 : hs E 1 (/ a) <= 1 - (1 - delta) * / a).
  { rewrite hs_swap, Rinv_inv by assumption. nra. }
  assert (C1 : (1 - delta) / (1 + / a) = (1 - delta) * (a / (1 + a))) by (field; split; lra).
  rewrite C1. unfold Rdiv at 3.
  destruct (Rle_dec a t) as [L|L].
  - (* above *)
    assert (hs E 1 t <= delta) by (eapply Rle_trans; [apply hs_mono; eassumption | assumption]).
    assert (0 <= (1 - delta) * (a / (1 + a)) * pos (1 - t / a)).
    { apply Rmult_le_pos; [|apply pos_nonneg]. apply Rmult_le_pos; [lra|].
      apply Rmult_le_pos; [lra|]. left. apply Rinv_0_lt_compat. lra. }
    assert (0 <= (1 - delta) * / (1 + a) * pos (1 - t * a)).
    { apply Rmult_le_pos; [|apply pos_nonneg]. apply Rmult_le_pos; [lra|].
      left. apply Rinv_0_lt_compat. lra. }
    lra.
  - assert (T1 : t / a <= 1) by (unfold Rdiv; nra).
    rewrite (pos_eq (1 - t / a)) by lra.
    replace ((1 - delta) * (a / (1 + a)) * (1 - t / a)) with ((1 - delta) * ((a - t) / (1 + a))) by (field; lra).
    destruct (Rle_dec (/ a) t) as [M|M].
    + rewrite (pos_0 (1 - t * a)) by nra.
      (* t between 1/a and a *)
      destruct (Req_dec a 1) as [Ea|Na]; [rewrite Ea, Rinv_1 in M; lra|].
      set (w := (a - t) / (a - / a)).
      assert (Hden : 0 < a - / a) by nra.
      assert (Hw : 0 <= w <= 1).
      { unfold w. split.
        - apply Rmult_le_pos; [lra|]. left. apply Rinv_0_lt_compat. lra.
        - apply (Rmult_le_reg_r (a - / a)); [assumption|]. unfold Rdiv. rewrite Rmult_assoc, Rinv_l by lra. lra. }
      assert (Et : t = w * (/ a) + (1 - w) * a) by (unfold w; field; nra).
      assert (Hc := hs_convex E w (/ a) a Hw). rewrite <- Et in Hc.
      assert (w * hs E 1 (/ a) <= w * (1 - (1 - delta) * / a)) by (apply Rmult_le_compat_l; lra).
      assert ((1 - w) * hs E 1 a <= (1 - w) * delta) by (apply Rmult_le_compat_l; lra).
      assert (w * (1 - (1 - delta) * / a) + (1 - w) * delta = delta + (1 - delta) * ((a - t) / (1 + a))).
      { unfold w. field. repeat split; nra. }
      lra.
    + (* below 1/a *)
      rewrite (pos_eq (1 - t * a)) by nra.
      set (w := t * a). assert (Hw : 0 <= w <= 1) by (unfold w; split; nra).
      assert (Hc := hs_convex E w (/ a) 0 Hw). rewrite (hs_b0 E 1 V) in Hc by lra.
      replace (w * / a + (1 - w) * 0) with t in Hc by (unfold w; field; lra).
      assert (w * hs E 1 (/ a) <= w * (1 - (1 - delta) * / a)) by (apply Rmult_le_compat_l; lra).
      assert (w * (1 - (1 - delta) * / a) + (1 - w) * 1 = 1 - (1 - delta) * t) by (unfold w; field; lra).
      assert (delta + (1 - delta) * ((a - t) / (1 + a)) + (1 - delta) * / (1 + a) * (1 - t * a) = 1 - (1 - delta) * t)
        by (field; lra).
      unfold w in *. lra.
Qed.

Lemma params_ok eps delta pp disc D : 0 < disc ->
  privacy_parameters eps delta = Ok pp -> from_privacy_parameters pp disc = Ok D ->
  0 <= eps /\ 0 <= delta <= 1 /\ sound_pld D /\ proper (pmf_remove D) /\ symmetric D = true /\
  discretization (pmf_remove D) = disc /\ infinity_mass (pmf_remove D) = delta /\
  forall g, psum (pmf_remove D) g =
    (1 - delta) / (1 + exp (- eps)) * g (Rceil (eps / disc)) +
    (1 - delta) / (1 + exp eps) * g (Rceil (- eps / disc)).
Proof.
  intros Hd HP H. unfold privacy_parameters in HP.
  destruct (Rltb_spec eps 0); [discriminate|].
  destruct (Rltb_spec delta 0); [discriminate|]. destruct (Rltb_spec 1 delta); [discriminate|].
  cbn [orb] in HP. injection HP as <-.
  unfold from_privacy_parameters in H. rewrite Reqb_false in H by lra.
  unfold create_from_rounded_probability in H. apply bind_Ok in H. destruct H as (p & HC & H).
  injection H as <-. cbn [new_pld pmf_remove pmf_add symmetric].
  set (d := dadd _ _ _) in HC.
  pose proof (exp_pos eps). pose proof (exp_pos (- eps)).
  set (w1 := (1 - delta) / (1 + exp (- eps))) in *. set (w2 := (1 - delta) / (1 + exp eps)) in *.
  assert (W1 : 0 <= w1) by (apply Rmult_le_pos; [lra | left; apply Rinv_0_lt_compat; lra]).
  assert (W2 : 0 <= w2) by (apply Rmult_le_pos; [lra | left; apply Rinv_0_lt_compat; lra]).
  assert (ND1 : NoDup (keys (dset [] (Rceil (eps / disc)) w1))) by (apply NoDup_dset; constructor).
  assert (ND : NoDup (keys d)) by (apply NoDup_dadd; exact ND1).
  assert (S : forall g, dsum d g = w1 * g (Rceil (eps / disc)) + w2 * g (Rceil (- eps / disc))).
  { intros g. unfold d. rewrite dsum_dadd by exact ND1. cbn. lra. }
  assert (NN : nonneg_dict d).
  { intros k. rewrite <- dsum_ind, S by assumption. unfold ind.
    destruct (_ =? _)%Z, (_ =? _)%Z; lra. }
  assert (Hdl0 : 0 <= delta) by lra.
  destruct (create_pmf_ok _ _ _ _ _ Hd Hdl0 ND NN HC) as (W & PS & IM & DI & PE).
  assert (TW : w1 + w2 = 1 - delta).
  { unfold w1, w2. rewrite exp_Ropp. field. lra. }
  split; [lra|]. split; [lra|]. split; [|split; [|split; [reflexivity|split; [assumption|split; [assumption|]]]]].
  - unfold sound_pld, sound_pmf. cbn [new_pld pmf_remove pmf_add symmetric].
    repeat split; auto; try (apply W); lra.
  - apply proper_total. split; [assumption|]. unfold total. rewrite PS, S, IM. lra.
  - intros g. rewrite PS. apply S.
Qed.

Lemma params_bounds eps delta pp disc D E : 0 < disc ->
  privacy_parameters eps delta = Ok pp -> from_privacy_parameters pp disc = Ok D ->
  valid E -> dp_both E eps delta -> pld_bounds D E.
Proof.
  intros Hd HP H V HE.
  destruct (params_ok _ _ _ _ _ Hd HP H) as (He & Hdl & S & PR & SY & DI & IM & PS).
  assert (K : forall E', valid E' -> dp_both E' eps delta -> forall e, dp E' e (pmf_delta (pmf_remove D) (Fin e))).
  { intros E' V' H' e. apply dp_iff_hockey. eapply Rle_trans; [apply params_dominates; eassumption|].
    rewrite pmf_delta_psum by apply S. unfold ptest. rewrite PS, DI, IM. unfold params_curve.
    assert (G : forall v, pos (1 - exp (e - v)) <= hgain disc e (Rceil (v / disc))).
    { intros v. apply gain_ge. pose proof (round_bounds true disc v Hd) as RB. cbn [round_fn] in RB. lra. }
    pose proof (exp_pos eps). pose proof (exp_pos (- eps)).
    pose proof (G eps). pose proof (G (- eps)).
    assert (0 <= (1 - delta) / (1 + exp (- eps))) by (apply Rmult_le_pos; [lra | left; apply Rinv_0_lt_compat; lra]).
    assert (0 <= (1 - delta) / (1 + exp eps)) by (apply Rmult_le_pos; [lra | left; apply Rinv_0_lt_compat; lra]).
    assert (Q1 := Rmult_le_compat_l _ _ _ H4 H2). assert (Q2 := Rmult_le_compat_l _ _ _ H5 H3). lra. }
  split; [assumption|]. split.
  - intros e. apply K; assumption.
  - intros e. destruct S as (_ & _ & EA). rewrite (EA SY). apply K; [apply valid_swap; assumption|].
    destruct HE. split; [assumption | rewrite swap_swap; assumption].
Qed.

(** never worse than the guarantee, up to rounding epsilon up to the grid *)
Lemma params_tight eps delta pp disc D e : 0 < disc ->
  privacy_parameters eps delta = Ok pp -> from_privacy_parameters pp disc = Ok D ->
  eps + disc <= e \/ ((exists n, eps = IZR n * disc) /\ eps <= e) ->
  pld_delta D (Fin e) = delta.
Proof.
  intros Hd HP H HE.
  destruct (params_ok _ _ _ _ _ Hd HP H) as (He & Hdl & S & PR & SY & DI & IM & PS).
  unfold pld_delta. rewrite SY, pmf_delta_psum by apply S. unfold ptest. rewrite PS, DI, IM.
  assert (B : IZR (Rceil (eps / disc)) * disc <= e).
  { destruct HE as [HE|[[n En] HE]].
    - pose proof (round_bounds true disc eps Hd) as RB. cbn [round_fn] in RB. lra.
    - pose proof (round_exact true disc n Hd) as RE. cbn [round_fn] in RE. rewrite En, RE. lra. }
  assert (B2 : IZR (Rceil (- eps / disc)) * disc <= e).
  { eapply Rle_trans; [|exact B]. apply Rmult_le_compat_r; [lra|]. apply IZR_le.
    apply Rceil_le_iff. pose proof (Rceil_spec (eps / disc)). eapply Rle_trans; [|apply H0].
    unfold Rdiv. apply Rmult_le_compat_r; [left; apply Rinv_0_lt_compat; assumption | lra]. }
  assert (G : forall k, IZR k * disc <= e -> hgain disc e k = 0).
  { intros k Hk. apply pos_0. assert (exp 0 <= exp (e - IZR k * disc)) by (apply exp_le; lra).
    rewrite exp_0 in *. lra. }
  rewrite !G by assumption. lra.
Qed.

Lemma params_total eps delta disc : 0 < disc ->
  if (Rleb 0 eps && Rleb 0 delta && Rleb delta 1)%bool
  then exists pp D, privacy_parameters eps delta = Ok pp /\ from_privacy_parameters pp disc = Ok D
  else privacy_parameters eps delta = Err ValueError.
Proof.
  intros Hd. unfold privacy_parameters.
  destruct (Rleb_spec 0 eps), (Rltb_spec eps 0); try lra; cbn [andb]; [|reflexivity].
  destruct (Rleb_spec 0 delta), (Rltb_spec delta 0); try lra; cbn [andb orb]; [|reflexivity].
  destruct (Rleb_spec delta 1), (Rltb_spec 1 delta); try lra; [|reflexivity].
  exists (eps, delta). unfold from_privacy_parameters. rewrite Reqb_false by lra.
  unfold create_from_rounded_probability.
  destruct (create_pmf_total (dadd (dset [] (Rceil (eps / disc)) ((1 - delta) / (1 + exp (- eps))))
     (Rceil (- eps / disc)) ((1 - delta) / (1 + exp eps))) disc delta true) as [p ->].
  eexists. split; reflexivity.
Qed.
