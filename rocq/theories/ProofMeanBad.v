(** Where the mean mechanism is not private. *)
From Coq Require Import String.
From Verif Require Import Base Exn XReal TypesMean ModelMean SpecDP SpecMech SpecRun SpecMean ProofDP ProofShape ProofPeak ProofNoise ProofRun ProofSvtDp ProofSvtTight ProofMechTop ProofSplit ProofShapeGauss ProofGaussPair ProofMeanDp ProofMeanPriv.
Local Open Scope R_scope.

(** ** Noised counts *)
Lemma laplace_low y : y <= 0 -> laplace_law 1 y = exp y / 2.
Proof.
  intros H. unfold laplace_law. destruct (Rltb_spec y 0) as [N|N]; [f_equal; f_equal; field|].
  replace y with 0 by lra. rewrite Ropp_0. replace (0 / 1) with 0 by field. rewrite exp_0. lra.
Qed.
Lemma laplace_high y : 0 <= y -> laplace_law 1 y = 1 - exp (- y) / 2.
Proof. intros H. rewrite law_right by exact H. f_equal. f_equal. f_equal. field. Qed.
Lemma laplace_lip x y : x <= y -> laplace_law 1 y - laplace_law 1 x <= (y - x) / 2.
Proof.
  intros L. enough (x / 2 - laplace_law 1 x <= y / 2 - laplace_law 1 y) by lra.
  apply (deriv_nonneg (fun z => z / 2 - laplace_law 1 z) (fun z => 1 * / 2 + z * 0 - / (2 * 1) * exp (- Rabs z / 1))); [|exact L|].
  - intros z. apply derivable_pt_lim_minus; [|apply laplace_deriv; lra]. apply (derivable_pt_lim_mult id (fun _ => / 2)); [apply derivable_pt_lim_id | apply derivable_pt_lim_const].
  - intros z _. assert (exp (- Rabs z / 1) <= exp 0) by (apply exp_le; pose proof (Rabs_pos z); lra). rewrite exp_0 in *. lra.
Qed.
Lemma laplace_window m t w : 0 < w -> 0 <= t -> 2 * t <= Rabs m -> laplace_law 1 ((t - m) / w) - laplace_law 1 ((- t - m) / w) <= exp (- (t / w)).
Proof.
  intros Hw Ht Hm. destruct (laplace_is_cdf 1 ltac:(lra)) as (B & M & _). pose proof (div_nonneg t w Ht Hw) as Q. pose proof (exp_pos (- (t / w))) as PX.
  assert (I : forall u v, u <= v -> u / w <= v / w) by (intros u v L; apply Rmult_le_compat_r; [left; apply Rinv_0_lt_compat, Hw | exact L]).
  unfold Rabs in Hm. destruct (Rcase_abs m).
  - pose proof (M (t / w) ((- t - m) / w) (I t (- t - m) ltac:(lra))) as A. rewrite (laplace_high (t / w) Q) in A. pose proof (B ((t - m) / w)). lra.
  - pose proof (M ((t - m) / w) (- t / w) (I (t - m) (- t) ltac:(lra))) as A. replace (- t / w) with (- (t / w)) in A by (field; lra). rewrite (laplace_low (- (t / w))) in A by lra. pose proof (B ((- t - m) / w)). lra.
Qed.
(** The first moment of the Laplace density. *)
Lemma density_moment b k n : 0 < b -> 0 <= n -> laplace_density b (k - n) * Rabs k <= (2 * n + 2 * b) * laplace_density (2 * b) (k - n).
Proof.
  intros Hb Hn. unfold laplace_density. set (y := Rabs (k - n)). assert (Hy : 0 <= y) by apply Rabs_pos.
  assert (K : Rabs k <= n + y).
  { unfold y. replace k with (n + (k - n)) at 1 by ring. eapply Rle_trans; [apply Rabs_triang|]. rewrite (Rabs_right n) by lra. lra. }
  set (u := y / (2 * b)). assert (Hu : 0 <= u) by (unfold u; apply div_nonneg; lra). assert (Ey : y = 2 * b * u) by (unfold u; field; lra).
  replace (- y / b) with (- u + - u) by (unfold u; field; lra). replace (- y / (2 * b)) with (- u) by (unfold u; field; lra). rewrite exp_plus.
  pose proof (exp_pos (- u)) as X. assert (X1 : exp (- u) <= 1) by (rewrite <- exp_0; apply exp_le; lra).
  assert (X2 : u * exp (- u) <= 1 / 2).
  { pose proof (exp_ineq1_le (u - 1)) as E. assert (EE : exp (- u) = exp (-1) * / exp (u - 1)) by (rewrite <- exp_Ropp, <- exp_plus; f_equal; ring).
    pose proof (exp_pos (u - 1)). assert (exp (-1) <= 1 / 2).
    { replace (-1) with (- (1)) by ring. rewrite exp_Ropp. pose proof (exp_ineq1_le 1). apply (Rmult_le_reg_r (exp 1)); [lra|]. rewrite Rinv_l by lra. lra. }
    rewrite EE. pose proof (exp_pos (-1)). assert (u * / exp (u - 1) <= 1). { apply (Rmult_le_reg_r (exp (u - 1))); [lra|]. rewrite Rmult_assoc, Rinv_l by lra. lra. }
    assert (0 < / exp (u - 1)) by (apply Rinv_0_lt_compat; lra). assert (0 <= u * / exp (u - 1)) by nra. nra. }
  replace (exp (- u) * exp (- u) / (2 * b) * Rabs k) with (exp (- u) / (4 * b) * (2 * (exp (- u) * Rabs k))) by (field; lra).
  replace ((2 * n + 2 * b) * (exp (- u) / (2 * (2 * b)))) with (exp (- u) / (4 * b) * (2 * n + 2 * b)) by (field; lra).
  apply Rmult_le_compat_l; [apply div_nonneg; lra|]. assert (exp (- u) * Rabs k <= exp (- u) * (n + y)) by (apply Rmult_le_compat_l; lra). rewrite Ey in *. nra.
Qed.

Definition tol10 : R := 1 / 10 ^ 10.
Lemma tol_values : tol10 / (1 / 10 ^ 12) = 100 /\ 0 < tol10 < 1 / 1000000000 /\ 0 < 1 / 10 ^ 12.
Proof. unfold tol10. repeat split; lra. Qed.
Lemma exp_100 : 0 < exp (- (100)) < 1 / 10 ^ 11.
Proof. split; [apply exp_pos|]. eapply Rle_lt_trans; [|apply exp_40]. apply exp_le. lra. Qed.

Definition window (P : R -> R) : R := P tol10 - P (- tol10).
Lemma window_event P : event_chance (fun o => match o with (Fin _, Fin _) => true | _ => false end) [- tol10; tol10] P = window P.
Proof. unfold event_chance, cells, window. cbn. ring. Qed.
Lemma window_dp P Q e d : dp (observe P Q [- tol10; tol10]) e d -> window P <= exp e * window Q + d.
Proof.
  intros H. specialize (H (fun o => match o with (Fin _, Fin _) => true | _ => false end)).
  rewrite <- !window_event. exact H.
Qed.
Lemma window_sorted : StronglySorted Rlt [- tol10; tol10].
Proof. destruct tol_values as (_ & T & _). repeat constructor. lra. Qed.

Section Noised.
  Context (e : R) (m : nat) (fm : bool).
  Hypotheses (He : 1 / 1000 <= e) (Hm : INR (S m) * e <= 1).
  Notation c := (mkMean e 0 fm true 1 0).
  Notation n := (INR (S m)).
  Notation F := (laplace_law 1).

  Lemma n_pos : 1 <= n.
  Proof. rewrite S_INR. pose proof (pos_INR m). lra. Qed.
  Lemma e_le : e <= 1.
  Proof. pose proof n_pos. nra. Qed.
  Lemma share_c : epsilon_share c = e / 2.
  Proof. unfold epsilon_share. destruct fm; reflexivity. Qed.
  Lemma sum_of x : 0 <= x <= 1 -> rsum (bounded c) (x :: repeat 0 m) = x.
  Proof.
    intros Hx. cbn [rsum]. assert (B : forall y, 0 <= y <= 1 -> bounded c y = y) by (intros y Hy; unfold bounded; cbn; rewrite Rmax_left, Rmin_left; lra).
    rewrite B by exact Hx. replace (rsum (bounded c) (repeat 0 m)) with 0; [ring|]. clear Hm. induction m as [|k IH]; cbn [repeat rsum]; [reflexivity|]. rewrite <- IH, B; lra.
  Qed.
  Lemma length_of x : List.length (x :: repeat 0 m) = S m.
  Proof. cbn [List.length]. rewrite repeat_length. reflexivity. Qed.
  Lemma scale_c x k : k < 0 -> scale_given c (x :: repeat 0 m) k = 1 / 10 ^ 12.
  Proof.
    intros Hk. unfold scale_given. rewrite share_c. cbn [mean_delta mean_max mean_min noised_scale]. unfold factor. rewrite Reqb_true by reflexivity.
    rewrite Rabs_right by lra. apply Rmax_left. destruct tol_values as (_ & _ & T). apply Rle_trans with 0; [|lra].
    replace (1 * (1 - 0) / (e / 2) / k) with (- (2 / e / (- k))) by (field; lra). pose proof (div_nonneg (2 / e) (- k) ltac:(apply div_nonneg; lra) ltac:(lra)). lra.
  Qed.
  Lemma scale_c_pos x k : 0 < k -> / scale_given c (x :: repeat 0 m) k <= k.
  Proof.
    intros Hk. unfold scale_given. rewrite share_c. cbn [mean_delta mean_max mean_min noised_scale]. unfold factor. rewrite Reqb_true by reflexivity.
    rewrite Rabs_right by lra. pose proof (Rmax_r (1 / 10 ^ 12) (1 * (1 - 0) / (e / 2) / k)) as M. set (w := Rmax _ _) in *.
    replace (1 * (1 - 0) / (e / 2) / k) with (2 / e * / k) in M by (field; lra). pose proof e_le.
    assert (2 <= 2 / e). { apply (Rmult_le_reg_r e); [lra|]. unfold Rdiv. rewrite Rmult_assoc, Rinv_l; lra. }
    assert (0 < / k) by (apply Rinv_0_lt_compat, Hk). assert (W : / k <= w) by nra.
    rewrite <- (Rinv_inv k). apply Rinv_le_contravar; assumption.
  Qed.

  (** With the zeros only, a negative count leads to a result close to 0. *)
  Lemma zeros_window P : mean_law F c (0 :: repeat 0 m) P -> (1 - exp (- (100))) * (exp (- (1/2)) / 2) <= window P.
  Proof.
    intros HP. assert (HF : is_cdf F) by (apply laplace_is_cdf; lra). assert (E0 : 0 < mean_epsilon c) by (cbn; lra).
    pose proof (event_split F c E0 (0 :: repeat 0 m) P (fun o => match o with (Fin _, Fin _) => true | _ => false end) [- tol10; tol10] HP) as SP.
    rewrite length_of, window_event in SP. set (d := - (1 - exp (- (100)))).
    pose proof (split_compare _ _ _ _ _ _ 1 1 d 0 split_zero SP (density_prim (1 / epsilon_share c) n (b_pos c E0))) as K.
    assert (KK : 0 <= 1 * window P + 0 * (1 - laplace_law (1 / epsilon_share c) (0 - n)) + d * laplace_law (1 / epsilon_share c) (0 - n)).
    { apply K.
      - intros k Hk. rewrite window_event. pose proof (density_pos (1 / epsilon_share c) (k - n) (b_pos c E0)) as DP. set (D := laplace_density _ _) in *.
        enough (1 - exp (- (100)) <= window (law_given F c (0 :: repeat 0 m) k)) by (unfold d; nra).
        unfold window, law_given, mean_given. rewrite sum_of by lra. rewrite (scale_c 0 k Hk). destruct tol_values as (T1 & _ & T2).
        assert (Z : 0 / (if noised_mean c then k else INR (List.length (0 :: repeat 0 m))) = 0) by (unfold Rdiv; ring). rewrite Z, !Rminus_0_r.
        replace (- tol10 / (1 / 10 ^ 12)) with (- (tol10 / (1 / 10 ^ 12))) by (field; lra). rewrite T1, laplace_high, laplace_low by lra. lra.
      - intros k Hk. pose proof (density_pos (1 / epsilon_share c) (k - n) (b_pos c E0)) as DP.
        pose proof (event_bounds (fun o => match o with (Fin _, Fin _) => true | _ => false end) [- tol10; tol10] _ (law_given_cdf F c (0 :: repeat 0 m) k HF) window_sorted). nra. }
    assert (L : exp (- (1/2)) / 2 <= laplace_law (1 / epsilon_share c) (0 - n)).
    { rewrite Rminus_0_l, (negative_count c E0), share_c. enough (exp (- (1/2)) <= exp (- (n * (e / 2)))) by lra. apply exp_le. lra. }
    pose proof exp_100. unfold d in KK. nra.
  Qed.
  Lemma one_window P : mean_law F c (1 :: repeat 0 m) P -> window P <= exp (- (100)) + 12 * tol10 / e.
  Proof.
    intros HP. assert (HF : is_cdf F) by (apply laplace_is_cdf; lra). assert (E0 : 0 < mean_epsilon c) by (cbn; lra).
    pose proof (event_split F c E0 (1 :: repeat 0 m) P (fun o => match o with (Fin _, Fin _) => true | _ => false end) [- tol10; tol10] HP) as SP.
    rewrite length_of, window_event in SP. pose proof (b_pos c E0) as Hb. set (b := 1 / epsilon_share c) in *. assert (Eb : b = 2 / e) by (unfold b; rewrite share_c; field; lra).
    destruct tol_values as (T1 & T0 & T2). pose proof n_pos as PN. pose proof e_le as E1. set (t := tol10) in *.
    assert (PT : forall k, k <> 0 -> window (law_given F c (1 :: repeat 0 m) k) <= exp (- (100)) + 2 * t * Rabs k).
    { intros k Hk. unfold window. fold t. pose proof (exp_pos (- (100))) as EX. pose proof (Rabs_pos k) as AK.
      assert (B : forall x, 0 <= law_given F c (1 :: repeat 0 m) k x <= 1) by (intros x; unfold law_given; apply HF).
      destruct (Rlt_dec k 0) as [N|N].
      - destruct (Rle_dec (2 * t) (Rabs (mean_given c (1 :: repeat 0 m) k))) as [G|G].
        + unfold law_given. rewrite (scale_c 1 k N). eapply Rle_trans; [apply laplace_window; [exact T2 | lra | exact G]|]. rewrite T1. nra.
        + enough (1 <= 2 * t * Rabs k) by (pose proof (B t); pose proof (B (- t)); lra).
          apply Rnot_le_lt in G. unfold mean_given in G. rewrite sum_of, length_of in G by lra. cbn [noised_mean] in G. destruct fm.
          * unfold Rdiv in G. rewrite Rmult_1_l, Rabs_inv in G. assert (0 < Rabs k) by (apply Rabs_pos_lt, Hk).
            apply (Rmult_lt_compat_r (Rabs k)) in G; [|assumption]. rewrite Rinv_l in G by lra. lra.
          * exfalso. rewrite Rabs_right in G by (apply Rle_ge, div_nonneg; lra).
            assert (e <= 1 / n); [|lra]. apply (Rmult_le_reg_r n); [lra|]. unfold Rdiv. rewrite Rmult_assoc, Rinv_l by lra. lra.
      - assert (Pk : 0 < k) by lra. unfold law_given. pose proof (scale_pos c (1 :: repeat 0 m) k) as W. pose proof (scale_c_pos 1 k Pk) as IW. set (w := scale_given _ _ _) in *. set (u := mean_given _ _ _).
        assert (I : (- t - u) / w <= (t - u) / w) by (apply Rmult_le_compat_r; [left; apply Rinv_0_lt_compat, W | lra]).
        pose proof (laplace_lip _ _ I) as L. replace (((t - u) / w - (- t - u) / w) / 2) with (t * / w) in L by (field; lra).
        rewrite Rabs_right by lra. assert (t * / w <= t * k) by (apply Rmult_le_compat_l; lra). nra. }
    pose proof (split_compare _ _ _ _ _ _ 1 (exp (- (100))) (12 * t / e) (12 * t / e) SP (density_split b n Hb) (density_prim (2 * b) n ltac:(lra))) as K.
    assert (PW : forall k, k <> 0 -> laplace_density b (k - n) * event_chance (fun o => match o with (Fin _, Fin _) => true | _ => false end) [- tol10; tol10] (law_given F c (1 :: repeat 0 m) k)
       <= exp (- (100)) * laplace_density b (k - n) + 12 * t / e * laplace_density (2 * b) (k - n)).
    { intros k Hk. rewrite window_event. specialize (PT k Hk). pose proof (density_pos b (k - n) Hb) as DP. pose proof (density_pos (2 * b) (k - n) ltac:(lra)) as DP2.
      pose proof (density_moment b k n Hb ltac:(lra)) as DM. set (D := laplace_density b (k - n)) in *. set (D2 := laplace_density (2 * b) (k - n)) in *.
      apply Rle_trans with (D * (exp (- (100)) + 2 * t * Rabs k)); [apply Rmult_le_compat_l; lra|].
      assert (Q : 2 * t * (D * Rabs k) <= 2 * t * ((2 * n + 2 * b) * D2)) by (apply Rmult_le_compat_l; lra).
      assert (2 * t * (2 * n + 2 * b) <= 12 * t / e).
      { rewrite Eb. apply (Rmult_le_reg_r e); [lra|]. replace (2 * t * (2 * n + 2 * (2 / e)) * e) with (2 * t * (2 * (n * e) + 4)) by (field; lra).
        replace (12 * t / e * e) with (2 * t * 6) by (field; lra). apply Rmult_le_compat_l; lra. }
      assert (2 * t * (2 * n + 2 * b) * D2 <= 12 * t / e * D2) by (apply Rmult_le_compat_r; lra). lra. }
    fold b in SP. specialize (K (fun k Hk => PW k ltac:(lra)) (fun k Hk => PW k ltac:(lra))). lra.
  Qed.
  Lemma noised_bad P P' : mean_law F c (0 :: repeat 0 m) P -> mean_law F c (1 :: repeat 0 m) P' -> ~ dp (observe P P' [- tol10; tol10]) e (1 / 4).
  Proof.
    intros HP HP' D. apply window_dp in D. pose proof (zeros_window P HP) as A. pose proof (one_window P' HP') as B. destruct tol_values as (_ & T & _). pose proof exp_100 as X. pose proof e_le as E1.
    assert (H12 : 12 * tol10 / e <= 1 / 10000).
    { apply (Rmult_le_reg_r e); [lra|]. unfold Rdiv at 1. rewrite Rmult_assoc, Rinv_l by lra. lra. }
    assert (EE : exp e <= 3) by (eapply Rle_trans; [apply exp_le, E1 | apply exp_le_3]).
    assert (H2 : 57 / 100 <= exp (- (1/2))).
    { rewrite exp_Ropp. pose proof (exp_pos (1/2)) as P2. assert (exp (1/2) * exp (1/2) <= 3) by (rewrite <- exp_plus; replace (1/2 + 1/2) with 1 by lra; apply exp_le_3).
      assert (exp (1/2) <= 7 / 4) by nra. apply (Rmult_le_reg_r (exp (1/2))); [exact P2|]. rewrite Rinv_l by lra. lra. }
    assert (W0 : 0 <= window P').
    { pose proof (law_mono F c (laplace_is_cdf 1 ltac:(lra)) ltac:(cbn; lra) _ P' (- tol10) tol10 HP' ltac:(lra)). unfold window. lra. }
    assert (exp e * window P' <= 3 * window P') by (apply Rmult_le_compat_r; lra).
    assert (0 < 1 / 10 ^ 11 < 1 / 10000) by lra. nra.
  Qed.
End Noised.

Lemma noised_refuted name e m c P P' : (name = "private_mean" \/ name = "non_private_mean_v2")%string -> default_mean_config name e 0 = Ok c ->
  1 / 1000 <= e -> INR (S m) * e <= 1 -> mean_law (laplace_law 1) c (0 :: repeat 0 m) P -> mean_law (laplace_law 1) c (1 :: repeat 0 m) P' ->
  exists cuts, StronglySorted Rlt cuts /\ ~ dp (observe P P' cuts) e (1 / 4).
Proof.
  intros N E He Hm HP HP'. exists [- tol10; tol10]. split; [apply window_sorted|].
  destruct N as [-> | ->]; cbn in E; injection E as <-; [apply (noised_bad e m true) | apply (noised_bad e m false)]; assumption.
Qed.

(** ** The exact count *)
Lemma exact_law F c data P x : 0 < mean_epsilon c -> noised_mean c = false -> noised_scale c = false -> mean_law F c data P -> P x = law_given F c data 1 x.
Proof.
  intros He F1 F2 H. specialize (H x).
  apply (split_unique (fun k => laplace_density (1 / epsilon_share c) (k - INR (List.length data)) * law_given F c data 1 x)).
  - apply (split_ext (fun k => laplace_density (1 / epsilon_share c) (k - INR (List.length data)) * F ((x - mean_given c data k) / scale_given c data k))); [|exact H].
    intros k _. unfold law_given, mean_given, scale_given. rewrite F1, F2. reflexivity.
  - set (v := law_given F c data 1 x).
    pose proof (split_scal v _ 1 (density_split (1 / epsilon_share c) (INR (List.length data)) (b_pos c He))) as K. rewrite Rmult_1_r in K.
    apply (split_ext (fun k => v * laplace_density (1 / epsilon_share c) (k - INR (List.length data)))); [intros; ring | exact K].
Qed.
Lemma tail_event P Q T e d : dp (observe P Q [T]) e d -> 1 - P T <= exp e * (1 - Q T) + d.
Proof.
  intros H. specialize (H (fun o => match o with (Fin _, _) => true | _ => false end)). unfold ProbP, ProbQ in H. cbn in H. lra.
Qed.
Lemma head_event P Q T e d : dp (observe P Q [T]) e d -> P T <= exp e * Q T + d.
Proof.
  intros H. specialize (H (fun o => match o with (MInf, _) => true | _ => false end)). unfold ProbP, ProbQ in H. cbn in H. lra.
Qed.

Lemma added_refuted e c e' P P' : 0 < e <= 10 ^ 11 -> default_mean_config "non_private_mean_v1" e 0 = Ok c ->
  mean_law (laplace_law 1) c [0] P -> mean_law (laplace_law 1) c [0; 0] P' -> exists cuts, StronglySorted Rlt cuts /\ ~ dp (observe P P' cuts) e' 0.
Proof.
  intros He E HP HP'. cbn in E. injection E as <-. set (c := mkMean e 0 false false 1 0) in *. set (T := (Rabs e' + 1) / e). exists [T]. split; [repeat constructor|].
  intros D. apply tail_event in D.
  rewrite (exact_law _ c _ P T ltac:(cbn; lra) eq_refl eq_refl HP), (exact_law _ c _ P' T ltac:(cbn; lra) eq_refl eq_refl HP') in D.
  assert (B0 : bounded c 0 = 0) by (unfold bounded; cbn; rewrite Rmax_left, Rmin_left; lra).
  assert (SC : forall data k, (1 <= List.length data <= 2)%nat -> scale_given c data k = 1 / e / INR (List.length data)).
  { intros data k L. unfold scale_given, factor, epsilon_share. cbn [mean_delta mean_max mean_min noised_scale noised_mean mean_epsilon c]. rewrite Reqb_true by reflexivity. rewrite Rabs_right by lra.
    assert (I : 1 <= INR (List.length data) <= 2) by (split; [apply (le_INR 1), L | apply (le_INR _ 2), L]).
    replace (1 * (1 - 0) / e / INR (List.length data)) with (1 / e / INR (List.length data)) by (field; lra). apply Rmax_right.
    replace (1 / e / INR (List.length data)) with (/ (e * INR (List.length data))) by (field; lra). unfold Rdiv. rewrite Rmult_1_l. apply Rinv_le_contravar; nra. }
  assert (HT : 0 < T) by (unfold T; apply Rdiv_lt_0_compat; [pose proof (Rabs_pos e'); lra | lra]).
  unfold law_given, mean_given in D. rewrite !SC in D by (cbn; lia). cbn [rsum List.length INR noised_mean c] in D. rewrite !B0 in D.
  replace ((T - (0 + 0) / 1) / (1 / e / 1)) with (T * e) in D by (field; lra). replace ((T - (0 + (0 + 0)) / (1 + 1)) / (1 / e / (1 + 1))) with (2 * (T * e)) in D by (field; lra).
  assert (TE : T * e = Rabs e' + 1) by (unfold T; field; lra). rewrite TE in D. pose proof (Rabs_pos e') as A. pose proof (Rle_abs e') as A'.
  rewrite !laplace_high in D by lra. set (a := Rabs e') in *.
  assert (W : exp e' * exp (- (2 * (a + 1))) < exp (- (a + 1))) by (rewrite <- exp_plus; apply exp_increasing; lra). lra.
Qed.

(** A value from epsilon = 1 on for which the noise is too small. *)
Lemma gaussian_refuted delta : 0 < delta < 1 -> exists e0, 0 < e0 /\ forall Phi e lo hi P P', normal_cdf Phi -> e0 <= e <= 10 ^ 11 * (hi - lo) -> 
  let c := mkMean e delta false false hi lo in mean_law Phi c [lo] P -> mean_law Phi c [hi] P' ->
  exists cuts, StronglySorted Rlt cuts /\ ~ dp (observe P P' cuts) e delta.
Proof.
  intros Hd. destruct (gaussian_factor_sq delta ltac:(lra)) as (A0 & _ & A1 & _). set (a := gaussian_factor delta) in *.
  set (e0 := Rmax (16 * (a * a)) (1 - ln (1 - delta))). exists e0.
  assert (E1 : 16 * (a * a) <= e0) by apply Rmax_l. assert (E2 : 1 - ln (1 - delta) <= e0) by apply Rmax_r.
  split; [lra|]. intros Phi e lo hi P P' HP He c HL HL'. set (r := hi - lo) in *. assert (Hr : 0 < r) by nra.
  assert (BL : bounded c lo = lo /\ bounded c hi = hi).
  { unfold bounded. cbn. unfold r in *. split; [rewrite Rmax_left, Rmin_left | rewrite Rmax_left, Rmin_left]; lra. }
  assert (SC : forall x k, scale_given c [x] k = a * r / e).
  { intros x k. unfold scale_given, factor, epsilon_share. cbn [mean_delta mean_max mean_min noised_scale noised_mean mean_epsilon c List.length INR]. rewrite Reqb_false by lra. fold a. fold r. rewrite Rabs_right by lra.
    replace (a * r / e / 1) with (a * r / e) by (field; lra). apply Rmax_right.
    apply (Rmult_le_reg_r e); [lra|]. replace (a * r / e * e) with (a * r) by (field; lra). assert (1 / 10 ^ 12 * e <= 1 / 10 ^ 12 * (10 ^ 11 * r)) by (apply Rmult_le_compat_l; lra).
    assert (3 / 5 <= a) by nra. nra. }
  exists [lo + r / 2]. split; [repeat constructor|]. intros D. apply head_event in D.
  rewrite (exact_law _ c _ P _ ltac:(cbn; lra) eq_refl eq_refl HL), (exact_law _ c _ P' _ ltac:(cbn; lra) eq_refl eq_refl HL') in D.
  unfold law_given, mean_given in D. rewrite !SC in D. cbn [rsum List.length INR noised_mean c] in D. rewrite (proj1 BL), (proj2 BL) in D.
  set (z := e / (2 * a)). assert (Hz : 0 <= z) by (unfold z; apply div_nonneg; lra).
  replace ((lo + r / 2 - (lo + 0) / 1) / (a * r / e)) with z in D by (unfold z; field; lra).
  replace ((lo + r / 2 - (hi + 0) / 1) / (a * r / e)) with (- z) in D by (replace hi with (lo + r) by (unfold r; ring); unfold z; field; lra).
  pose proof (normal_tail Phi z HP Hz) as TZ. rewrite (normal_mirror Phi HP z) in D.
  assert (EZ : e <= z * z / 4).
  { unfold z. apply (Rmult_le_reg_r (16 * (a * a))); [nra|]. replace (e / (2 * a) * (e / (2 * a)) / 4 * (16 * (a * a))) with (e * e) by (field; lra). apply Rmult_le_compat_l; lra. }
  assert (X1 : exp (- (z * z) / 2) <= exp (- e)) by (apply exp_le; nra).
  assert (X2 : exp e * exp (- (z * z) / 2) <= exp (- e)) by (rewrite <- exp_plus; apply exp_le; nra).
  assert (X3 : exp (- e) < 1 - delta).
  { rewrite <- (exp_ln (1 - delta)) by lra. apply exp_increasing. lra. }
  assert (exp e * Phi (- z) <= exp e * (exp (- (z * z) / 2) / 2)) by (apply Rmult_le_compat_l; [left; apply exp_pos | exact TZ]). lra.
Qed.
