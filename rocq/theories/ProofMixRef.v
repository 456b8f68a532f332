(** Inputs on which the methods of the mixture class are wrong. *)
From Coq Require Import Lra FunctionalExtensionality.
From Verif Require Import Base XReal Exn PyDict TypesAdjacency ModelPmf ModelPld ModelMake ModelMech ModelSearch ModelMixture SpecDP SpecPmf SpecPld SpecMech SpecMake SpecClasses SpecConstruct SpecSearch SpecNoiseAcc SpecMixture
  ProofDP ProofDict ProofPmf ProofPld ProofDots ProofMake ProofTwo ProofBuckets ProofPeak ProofTailClasses ProofSearch ProofConstructEx ProofShapeGauss ProofMix ProofMixLaw ProofMixInv ProofMixDelta ProofMixDom ProofMixPld ProofMixTotal.
Local Arguments Rltb : simpl never.
Local Arguments Rleb : simpl never.
Local Arguments Reqb : simpl never.

(** ** A search that is not given a suitable range *)
Lemma near_limit_raises Phi fuel sigma sens probs lb comps adj eps : new_mixture sigma sens probs lb = Ok comps -> rsum (fun p => p) probs = 1 ->
  loss_possible adj (positive_part comps) eps -> near_end adj (positive_part comps) eps -> mx_delta Phi fuel sigma comps adj eps = Err ValueError.
Proof.
  intros EN HT P N. destruct (new_mixture_ok _ _ _ _ _ EN HT) as (Hs & Hlb & EL & EC & ok & total & some & _).
  unfold mx_delta, raw_deltas. cbn [nondecreasing negb filter]. rewrite (proj2 (needs_eq comps ok total some adj eps) P).
  unfold mx_inverse_losses. cbn [nondecreasing negb last filter]. destruct (is_finite_loss comps adj eps) eqn:FE; [apply (finite_eq comps ok total some) in FE; contradiction|].
  destruct (match adj with ADD => _ | REMOVE => _ end); reflexivity.
Qed.

(** ** Three sensitivities *)
Definition sens3 : list R := [40; 80; 120].
Definition probs3 : list R := [1 / 1000; 998 / 1000; 1 / 1000].
Definition cs3 : list (R * R) := combine sens3 probs3.
Lemma cs3_in c : In c cs3 -> c = (40, 1 / 1000) \/ c = (80, 998 / 1000) \/ c = (120, 1 / 1000).
Proof. unfold cs3, sens3, probs3. cbn. intuition. Qed.
Lemma ok3 c : In c cs3 -> 0 <= fst c /\ 0 < snd c.
Proof. intros I. apply cs3_in in I as [->|[->| ->]]; cbn; lra. Qed.
Lemma total3 : rsum snd cs3 = 1.
Proof. unfold cs3, sens3, probs3. cbn. lra. Qed.
Lemma some3 : exists c, In c cs3 /\ 0 < fst c.
Proof. exists (40, 1 / 1000). split; [left; reflexivity | cbn; lra]. Qed.
Lemma pos3 : pos_comps cs3 = cs3.
Proof. unfold pos_comps, cs3, sens3, probs3. cbn [combine filter fst]. rewrite !Rltb_true by lra. reflexivity. Qed.
Lemma q3 : positive_part cs3 = 1.
Proof. unfold positive_part. fold (pos_comps cs3). rewrite pos3. exact total3. Qed.
Lemma min3 : mx_min_sens cs3 = 40.
Proof. unfold mx_min_sens. rewrite pos3. unfold cs3, sens3, probs3, np_min. cbn [combine map fold_left fold_right fst]. repeat (first [rewrite (Rmin_left 40) by lra | rewrite (Rmin_left 80 120) by lra | rewrite (Rmin_right 120 40) by lra | rewrite (Rmin_right 80 40) by lra]). reflexivity. Qed.
Lemma max3 : mx_max_sens cs3 = 120.
Proof. unfold mx_max_sens. rewrite pos3. unfold cs3, sens3, probs3, np_max. cbn [combine map fold_left fold_right fst]. repeat (first [rewrite (Rmax_right 40) by lra | rewrite (Rmax_right 80 120) by lra | rewrite (Rmax_left 120) by lra | rewrite (Rmax_left 40 40) by lra]). reflexivity. Qed.
Lemma new3 lb : lb <= 0 -> new_mixture 1 sens3 probs3 lb = Ok cs3.
Proof.
  intros H. unfold new_mixture. rewrite Rleb_false, Rltb_false by lra. change (length probs3 =? length sens3)%nat with true. cbn [negb]. cbv zeta. change (combine sens3 probs3) with cs3.
  assert (F : filter (fun c => negb (Reqb (snd c) 0)) cs3 = cs3) by (unfold cs3, sens3, probs3; cbn [combine filter snd]; rewrite !Reqb_false by lra; reflexivity). rewrite F.
  assert (E1 : existsb (fun c => Rltb (fst c) 0) cs3 = false) by (unfold cs3, sens3, probs3; cbn [combine existsb fst]; rewrite !Rltb_false by lra; reflexivity). rewrite E1.
  assert (E2 : existsb (fun c => (Rleb (snd c) 0 || Rltb 1 (snd c))%bool) cs3 = false) by (unfold cs3, sens3, probs3; cbn [combine existsb snd]; rewrite !Rltb_false, !Rleb_false by lra; reflexivity).
  assert (E3 : np_max (map fst cs3) = 120) by (rewrite <- max3; unfold mx_max_sens; rewrite pos3; reflexivity).
  rewrite E2, E3, total3, Reqb_false by lra. unfold isclose. rewrite Rleb_true by (replace (1 - 1) with 0 by ring; rewrite Rabs_R0, Rabs_R1, Rmax_left by lra; lra). reflexivity.
Qed.
Lemma sum3 : rsum (fun p => p) probs3 = 1.
Proof. unfold probs3. cbn. lra. Qed.

(** ** Bounds of exponentials *)
Lemma exp_small x : 0 <= x -> exp (- x) <= 1 / (1 + x / 4) ^ 4.
Proof.
  intros H. assert (E : exp x = exp (x / 4) ^ 4) by (cbn [pow]; rewrite Rmult_1_r, <- !exp_plus; f_equal; field). pose proof (exp_ineq1_le (x / 4)) as G.
  assert (K : (1 + x / 4) ^ 4 <= exp x) by (rewrite E; apply pow_incr; lra). assert (P : 0 < (1 + x / 4) ^ 4) by (apply pow_lt; lra).
  rewrite exp_Ropp. unfold Rdiv. rewrite Rmult_1_l. apply Rinv_le_contravar; assumption.
Qed.
Lemma exp_at x y b : 0 <= y -> x <= - y -> 1 <= b * (1 + y / 4) ^ 4 -> exp x <= b.
Proof.
  intros H L B. assert (P : 0 < (1 + y / 4) ^ 4) by (apply pow_lt; lra). eapply Rle_trans; [apply exp_le, L|]. eapply Rle_trans; [apply exp_small, H|].
  apply (Rmult_le_reg_r ((1 + y / 4) ^ 4)); [exact P|]. unfold Rdiv. rewrite Rmult_assoc, Rinv_l by lra. lra.
Qed.

Section Normal.
  Context (Phi ppf : R -> R) (HPhi : normal_cdf Phi) (HQ : quantile_of Phi ppf).
  Lemma phi_range x : 0 <= Phi x <= 1. Proof. apply HPhi. Qed.
  Lemma phi_mono x y : x <= y -> Phi x <= Phi y. Proof. apply HPhi. Qed.
  Lemma phi_tail m : 0 <= m -> Phi (- m) <= exp (- (m * m / 2)).
  Proof.
    intros Hm. apply le_epsilon. intros e He. pose proof HPhi as ((B & M & Lo & _) & _). destruct (Lo e He) as (a & Ha).
    destruct (Rle_lt_dec (- m) a) as [L|L]; [pose proof (M _ _ L); pose proof (exp_pos (- (m * m / 2))); lra|].
    pose proof (single_cell Phi HPhi m a (- m) Hm ltac:(lra)) as [G _]. pose proof (B (- m + m)). pose proof (B (a + m)).
    replace (- m * - m - m * m / 2) with (m * m / 2) in G by field. pose proof (exp_pos (- (m * m / 2))) as P.
    assert (E : exp (- (m * m / 2)) * exp (m * m / 2) = 1) by (rewrite <- exp_plus, Rplus_opp_l; apply exp_0).
    assert (K : exp (m * m / 2) * (Phi (- m) - Phi a) <= 1) by lra. apply (Rmult_le_compat_l (exp (- (m * m / 2)))) in K; [|lra]. rewrite <- Rmult_assoc, E in K. lra.
  Qed.
  Lemma phi_low x m b : 0 <= m -> x <= - m -> 1 <= b * (1 + m * m / 2 / 4) ^ 4 -> Phi x <= b.
  Proof.
    intros H L B. eapply Rle_trans; [apply phi_mono, L|]. eapply Rle_trans; [apply phi_tail, H|]. apply (exp_at _ (m * m / 2)); [nra | lra | exact B].
  Qed.
  Lemma phi_high x m b : 0 <= m -> m <= x -> 1 <= b * (1 + m * m / 2 / 4) ^ 4 -> 1 - b <= Phi x.
  Proof. intros H L B. pose proof (normal_mirror Phi HPhi (- x)) as N. rewrite Ropp_involutive in N. pose proof (phi_low (- x) m b H ltac:(lra) B). lra. Qed.

  Notation U := (upper Phi 1 cs3 REMOVE).
  Lemma U_eq x : U x = 1 / 1000 * Phi (x + 40) + 998 / 1000 * Phi (x + 80) + 1 / 1000 * Phi (x + 120).
  Proof.
    rewrite upper_eq. unfold cs3, sens3, probs3, law. cbn [combine rsum fst snd]. replace ((x + 40) / 1) with (x + 40) by field. replace ((x + 80) / 1) with (x + 80) by field. replace ((x + 120) / 1) with (x + 120) by field. ring.
  Qed.
  Lemma U_mono x y : x <= y -> U x <= U y.
  Proof. intros H. rewrite !U_eq. pose proof (phi_mono (x + 40) (y + 40) ltac:(lra)). pose proof (phi_mono (x + 80) (y + 80) ltac:(lra)). pose proof (phi_mono (x + 120) (y + 120) ltac:(lra)). lra. Qed.
  Lemma U_strict x y : x < y -> U x < U y.
  Proof. intros H. rewrite !U_eq. pose proof (normal_strict Phi (x + 40) (y + 40) HPhi ltac:(lra)). pose proof (normal_strict Phi (x + 80) (y + 80) HPhi ltac:(lra)). pose proof (normal_strict Phi (x + 120) (y + 120) HPhi ltac:(lra)). lra. Qed.
  Lemma U_small x : x <= - 83 -> 0 <= U x <= 1 / 10.
  Proof.
    intros H. rewrite U_eq. pose proof (phi_range (x + 40)). pose proof (phi_range (x + 120)). pose proof (phi_range (x + 80)). pose proof (phi_low (x + 80) 3 (1 / 20) ltac:(lra) ltac:(lra) ltac:(lra)). lra.
  Qed.
  Lemma U_100 : 5 / 10000 <= U (- 100) <= 1 / 10.
  Proof.
    split; [|apply U_small; lra]. rewrite U_eq. pose proof (phi_range (- 100 + 40)). pose proof (phi_range (- 100 + 80)). pose proof (phi_high (- 100 + 120) 10 (1 / 2) ltac:(lra) ltac:(lra) ltac:(lra)). lra.
  Qed.

  (** the divergence of the pair at 2800 *)
  Lemma true_gap : 9 / 10 <= U (- 76) - exp 2800 * Phi (- 76).
  Proof.
    rewrite U_eq. pose proof (phi_range (- 76 + 40)). pose proof (phi_range (- 76 + 120)). pose proof (phi_high (- 76 + 80) 4 (1 / 50) ltac:(lra) ltac:(lra) ltac:(lra)).
    pose proof (phi_tail 76 ltac:(lra)) as T. replace (Phi (- (76))) with (Phi (- 76)) in T by (f_equal; lra). apply (Rmult_le_compat_l (exp 2800)) in T; [|apply exp_pos_nonneg]. rewrite <- exp_plus in T.
    pose proof (exp_at (2800 + - (76 * 76 / 2)) 88 (1 / 1000) ltac:(lra) ltac:(lra) ltac:(lra)). lra.
  Qed.

  (** ** The inverse of one loss *)
  Lemma place3 s l : place 1 s (weight cs3 REMOVE l) = - s / 2 - l / s.
  Proof. unfold place, weight, ratio_of. rewrite q3. replace ((exp l - (1 - 1)) / 1) with (exp l) by field. rewrite ln_exp. unfold Rdiv. ring. Qed.
  Lemma poss3 l : possible cs3 REMOVE l.
  Proof. unfold possible, ratio_of. rewrite q3. pose proof (exp_pos l). lra. Qed.
  Lemma inverse3 l lo hi : lo <= - 20 - l / 40 <= hi -> lo <= - 60 - l / 120 <= hi ->
    yields (fun fuel => mx_inverse_losses fuel 1 cs3 REMOVE [l] (1 / 10 ^ 6)) (fun xs => exists y, xs = [Fin y] /\ lo - 1 / 1000 <= y <= hi + 1 / 1000).
  Proof.
    intros H1 H2. unfold mx_inverse_losses. cbn [nondecreasing negb last].
    assert (EE : end_loss cs3 REMOVE = MInf) by (rewrite (end_eq cs3 ok3 total3 some3), q3, Rltb_false by lra; reflexivity). rewrite EE. cbn [xleb].
    assert (FI : is_finite_loss cs3 REMOVE l = true) by (unfold is_finite_loss; rewrite EE; reflexivity). cbn [filter]. rewrite FI. cbn [np_min fold_left].
    unfold search_bounds. rewrite !(bound_eq 1 cs3 ok3 total3 some3) by (try apply poss3; rewrite ?min3, ?max3; lra). cbn [bind fst snd map_res]. rewrite FI, min3, max3, !place3.
    set (a := - (40) / 2 - l / 40). set (b := - (120) / 2 - l / 120).
    assert (MI : lo <= np_min [a; b; a; b]) by (destruct (np_min_spec [a; b; a; b] ltac:(discriminate)) as (I & _); cbn [In] in I; destruct I as [E|[E|[E|[E|[]]]]]; rewrite <- E; unfold a, b; lra).
    assert (MA : np_max [a; b; a; b] <= hi) by (destruct (np_max_spec [a; b; a; b] ltac:(discriminate)) as (I & _); cbn [In] in I; destruct I as [E|[E|[E|[E|[]]]]]; rewrite <- E; unfold a, b; lra).
    assert (MM : np_min [a; b; a; b] <= np_max [a; b; a; b]) by (apply np_min_spec; [discriminate | apply np_max_spec; discriminate]).
    set (m0 := np_min [a; b; a; b]) in *. set (m1 := np_max [a; b; a; b]) in *. clearbody m0 m1.
    set (b0 := IZR (Rfloor (m0 / (1 / 10 ^ 6))) * (1 / 10 ^ 6)). set (b1 := IZR (Rceil (m1 / (1 / 10 ^ 6))) * (1 / 10 ^ 6)).
    assert (B0 : m0 - 1 / 10 ^ 6 <= b0 <= m0) by (apply floor_near; lra).
    assert (B1 : m1 <= b1 <= m1 + 1 / 10 ^ 6).
    { unfold b1. pose proof (Rceil_spec (m1 / (1 / 10 ^ 6))) as [C1 C2]. apply (Rmult_lt_compat_r (1 / 10 ^ 6)) in C1; [|lra]. apply (Rmult_le_compat_r (1 / 10 ^ 6)) in C2; [|lra].
      replace (m1 / (1 / 10 ^ 6) * (1 / 10 ^ 6)) with m1 in * by field. lra. }
    clearbody b0 b1. destruct (range_yields 1 cs3 REMOVE (1 / 10 ^ 6) l ltac:(lra) b0 b1 ltac:(lra)) as (N & y & Hy & H).
    exists N, [Fin y]. split; [exists y; split; [reflexivity | lra]|]. intros fuel Hf. rewrite H by exact Hf. reflexivity.
  Qed.

  Lemma rho_one x c : In c cs3 -> snd c * exp (- (fst c * x + fst c * fst c / 2)) <= rho 1 cs3 x.
  Proof.
    intros I. pose proof (rsum_In_le (fun c => snd c * term 1 x c) cs3 c) as G. cbn beta in G. replace (exp (- (fst c * x + fst c * fst c / 2))) with (term 1 x c) by (unfold term; f_equal; field).
    apply G; [|exact I]. intros c' I'. apply Rmult_le_pos; [apply Rlt_le, ok3, I' | apply exp_pos_nonneg].
  Qed.
  Lemma rho_all x a : (forall s, s = 40 \/ s = 80 \/ s = 120 -> - (s * x + s * s / 2) <= a) -> rho 1 cs3 x <= exp a.
  Proof.
    intros H. unfold rho. replace (exp a) with (rsum snd cs3 * exp a) by (rewrite total3; ring). rewrite <- rsum_scal_r. apply rsum_le. intros c I. apply Rmult_le_compat_l; [apply Rlt_le, ok3, I|]. unfold term. apply exp_le.
    replace (- (fst c * x + fst c * fst c / 2) / (1 * 1)) with (- (fst c * x + fst c * fst c / 2)) by field. apply H. apply cs3_in in I as [->|[->| ->]]; cbn; auto.
  Qed.
  Lemma loss_ge x a : a + 1 <= - (80 * x + 3200) -> a <= mx_loss 1 cs3 REMOVE x.
  Proof.
    intros H. rewrite (mx_loss_eq 1 Rlt_0_1 cs3 ok3 total3). cbn [mloss]. rewrite <- (ln_exp a). apply ln_le_mono; [apply exp_pos|].
    eapply Rle_trans; [|apply (rho_one x (80, 998 / 1000)); right; left; reflexivity]. cbn [fst snd]. replace (- (80 * x + 80 * 80 / 2)) with (- (80 * x + 3200)) by field. apply exp_le in H. rewrite exp_plus in H.
    pose proof (exp_ineq1_le 1). pose proof (exp_pos a). nra.
  Qed.
  Lemma loss_le x a : (forall s, s = 40 \/ s = 80 \/ s = 120 -> - (s * x + s * s / 2) <= a) -> mx_loss 1 cs3 REMOVE x <= a.
  Proof. intros H. rewrite (mx_loss_eq 1 Rlt_0_1 cs3 ok3 total3). cbn [mloss]. rewrite <- (ln_exp a). apply ln_le_mono; [apply rho_pos; [exact ok3 | exact total3] | apply rho_all, H]. Qed.

  Lemma inverse_wrong : yields (fun fuel => mx_inverse_loss fuel 1 cs3 REMOVE 2800 (1 / 10 ^ 6)) (fun x => exists y, x = Fin y /\ 2800 + 500 <= mx_loss 1 cs3 REMOVE y).
  Proof.
    unfold mx_inverse_loss. apply (yields_bind _ _ _ _ (inverse3 2800 (- 90) (- 83 - 1 / 4) ltac:(lra) ltac:(lra))). intros xs (y & -> & Hy). apply yields_ret. exists y. split; [reflexivity|]. apply loss_ge. lra.
  Qed.

  Lemma gap_query cuts : cuts = [- 76] -> hockey_stick (observe U (lower Phi 1 cs3 REMOVE) cuts) 2800 >= 9 / 10.
  Proof.
    intros ->. apply Rle_ge. pose proof true_gap as G. assert (EL : lower Phi 1 cs3 REMOVE (- 76) = Phi (- 76)) by (unfold lower, law; cbn; f_equal; field). rewrite <- EL in G.
    set (u := U) in *. set (l := lower Phi 1 cs3 REMOVE) in *. clearbody u l. cbn. match goal with |- _ <= pos ?a + (pos ?b + 0) => pose proof (pos_ge a); pose proof (pos_nonneg b) end. lra.
  Qed.
  Lemma scalar_wrong : yields (fun fuel => mx_delta Phi fuel 1 cs3 REMOVE 2800) (fun d => d <= 1 / 10).
  Proof.
    unfold mx_delta, raw_deltas. cbn [nondecreasing negb filter]. assert (NC : needs_cutoff cs3 REMOVE 2800 = true) by (apply (needs_eq cs3 ok3 total3 some3); intros L; rewrite q3 in L; lra). rewrite NC.
    destruct (inverse3 2800 (- 90) (- 83 - 1 / 4) ltac:(lra) ltac:(lra)) as (N & xs & (y & -> & Hy) & H). exists N, (cutoff_delta Phi 1 cs3 REMOVE 2800 (Fin y)). split.
    - rewrite (cutoff_fin Phi HPhi 1 Rlt_0_1 cs3 ok3 total3). pose proof (U_small y ltac:(lra)) as S. unfold gap. pose proof (proj1 (lower_cdf Phi HPhi 1 Rlt_0_1 cs3 ok3 total3 REMOVE) y). pose proof (exp_pos 2800).
      eapply Rle_trans; [apply Rmin_r|]. apply Rmax_lub; [lra|]. nra.
    - intros fuel Hf. rewrite H by exact Hf. cbn [bind scatter]. rewrite NC. reflexivity.
  Qed.

  (** ** The privacy-buckets construction *)
  Notation tail := (U (- 100)).
  Definition lb3 : R := ln (2 * tail).
  Lemma lb_tail : 1 / 2 * exp lb3 = tail.
  Proof. unfold lb3. pose proof U_100. rewrite exp_ln by lra. lra. Qed.
  Lemma lb_neg : lb3 <= 0.
  Proof. unfold lb3. pose proof U_100. rewrite <- ln_1. apply ln_le_mono; lra. Qed.
  Notation z := (ppf tail).
  Lemma z_range : Phi z = tail /\ - 10 < z < 0.
  Proof.
    pose proof U_100 as T. assert (E : Phi z = tail) by (apply HQ; lra). split; [exact E|]. split.
    - apply Rnot_le_lt. intros L. pose proof (phi_low z 10 (1 / 10000) ltac:(lra) ltac:(lra) ltac:(lra)). lra.
    - apply Rnot_le_lt. intros L. pose proof (phi_mono 0 z L). pose proof (normal_mirror Phi HPhi 0) as N. rewrite Ropp_0 in N. lra.
  Qed.
  Lemma loss_ge40 x a : a + 20 <= - (40 * x + 800) -> a <= mx_loss 1 cs3 REMOVE x.
  Proof.
    intros H. rewrite (mx_loss_eq 1 Rlt_0_1 cs3 ok3 total3). cbn [mloss]. rewrite <- (ln_exp a). apply ln_le_mono; [apply exp_pos|].
    eapply Rle_trans; [|apply (rho_one x (40, 1 / 1000)); left; reflexivity]. cbn [fst snd]. replace (- (40 * x + 40 * 40 / 2)) with (- (40 * x + 800)) by field. apply exp_le in H. rewrite exp_plus in H.
    pose proof (exp_at (- (20)) 20 (1 / 1000) ltac:(lra) ltac:(lra) ltac:(lra)) as K. pose proof (exp_pos a).
    assert (I : exp 20 * exp (- (20)) = 1) by (rewrite <- exp_plus; replace (20 + - (20)) with 0 by ring; apply exp_0). pose proof (exp_pos 20) as P2.
    assert (1000 <= exp 20) by (apply (Rmult_le_compat_l (exp 20)) in K; lra). assert (exp a * 1000 <= exp a * exp 20) by (apply Rmult_le_compat_l; lra). lra.
  Qed.
  Lemma loss_range x : 0 <= x <= 10 -> - 1220 <= mx_loss 1 cs3 REMOVE x <= - 800.
  Proof. intros H. split; [apply loss_ge40; lra | apply loss_le; intros s [->|[->| ->]]; lra]. Qed.
  Lemma loss_range' x : - 10 <= x <= 0 -> - 820 <= mx_loss 1 cs3 REMOVE x <= - 400.
  Proof. intros H. split; [apply loss_ge40; lra | apply loss_le; intros s [->|[->| ->]]; lra]. Qed.
  Lemma loss_add x : mx_loss 1 cs3 ADD x = - mx_loss 1 cs3 REMOVE (- x).
  Proof. rewrite !(mx_loss_eq 1 Rlt_0_1 cs3 ok3 total3). reflexivity. Qed.
  Notation A := (upper Phi 1 cs3 ADD).
  Lemma A_eq x : A x = Phi x.
  Proof. unfold upper, law. cbn. f_equal. field. Qed.

  Lemma no_gain k : (k <= 1)%Z -> hgain 2800 2800 k = 0.
  Proof. intros H. unfold hgain. unfold pos. apply Rmax_left. apply IZR_le in H. pose proof (exp_ineq1_le (2800 - IZR k * 2800)). lra. Qed.
  Lemma gain_le k : hgain 2800 2800 k <= 1.
  Proof. unfold hgain. apply Rmax_lub; [lra|]. pose proof (exp_pos (2800 - IZR k * 2800)). lra. Qed.
  Lemma div_ceil a k : IZR k - 1 < a / 2800 <= IZR k -> round_xr true (xdiv (Fin a) (Fin 2800)) = Ok k.
  Proof. intros H. unfold xdiv. rewrite Reqb_false by lra. cbn [round_xr]. f_equal. apply Rceil_unique. lra. Qed.
  Lemma div_floor a k : IZR k <= a / 2800 < IZR k + 1 -> round_xr false (xdiv (Fin a) (Fin 2800)) = Ok k.
  Proof. intros H. unfold xdiv. rewrite Reqb_false by lra. cbn [round_xr]. f_equal. apply Rfloor_unique. lra. Qed.

  Lemma tail_remove : yields (fun fuel => mx_tail Phi ppf fuel 1 cs3 true lb3 REMOVE)
    (fun t => exists x, - 100 - 1 / 1000 <= x <= - 100 /\ t = mkTail x (- z) (dict2 PInf (U x) (Fin (mx_loss 1 cs3 REMOVE (- z))) (1 - U (- z)))).
  Proof.
    destruct z_range as (EZ & ZR). unfold mx_tail. rewrite lb_tail, max3, Rmult_1_l.
    apply (yields_bind _ _ (fun x => - 100 - 1 / 1000 <= x <= - 100)); [|intros x Hx; apply yields_ret; exists x; split; [exact Hx|]; rewrite !mu_fin; reflexivity].
    apply (yields_bind _ _ (fun r => exists x, r = Some (Fin x) /\ - 100 - 1 / 1000 <= x <= - 100)); [|intros r (x & -> & Hx); apply yields_ret, Hx].
    eapply yields_weaken; [|apply inverse_yields; [lra | lra |]].
    - intros r (x & y & -> & B1 & B2 & B3 & B4 & B5 & B6). exists x. split; [reflexivity|]. rewrite !mu_fin in *. split.
      + destruct B6 as [->|B6]; [lra|]. apply Rnot_lt_le. intros L. assert (K : y <= - 100) by lra. apply U_mono in K. lra.
      + apply Rnot_lt_le. intros L. apply U_strict in L. lra.
    - rewrite mu_fin. apply U_mono. lra.
  Qed.
  Lemma interval_remove x d : - 100 - 1 / 1000 <= x <= - 100 -> yields (fun fuel => interval_masses fuel (mx_methods Phi ppf fuel 1 cs3 true lb3 REMOVE) true 2800 (- z) (Fin (mx_loss 1 cs3 REMOVE (- z))) (Fin x) 1 d)
    (fun d' => exists y1 y0, - 91 <= y1 <= - 83 /\ - 61 <= y0 <= - 19 /\ d' = dadd (dadd (dadd d 2 (U y1 - U x)) 1 (U y0 - U y1)) 0 (U (- z) - U y0)).
  Proof.
    intros Hx. destruct z_range as (_ & ZR). pose proof (loss_range (- z) ltac:(lra)) as LR.
    destruct (inverse3 2800 (- 90) (- 83 - 1 / 4) ltac:(lra) ltac:(lra)) as (N1 & xs1 & (y1 & -> & Hy1) & H1).
    destruct (inverse3 0 (- 60) (- 20) ltac:(lra) ltac:(lra)) as (N0 & xs0 & (y0 & -> & Hy0) & H0).
    exists (4 + N1 + N0)%nat. eexists. split; [exists y1, y0; repeat split; [lra | lra | lra | lra]|].
    intros fuel Hf. set (m := mx_methods Phi ppf fuel 1 cs3 true lb3 REMOVE).
    assert (I1 : inverse_privacy_loss m (Fin (2800 * IZR 1)) = Ok (Fin y1)) by (unfold m; cbn [mx_methods inverse_privacy_loss]; rewrite Rmult_1_r; unfold mx_inverse_loss; rewrite H1 by lia; reflexivity).
    assert (I0 : inverse_privacy_loss m (Fin (2800 * IZR 0)) = Ok (Fin y0)) by (unfold m; cbn [mx_methods inverse_privacy_loss]; rewrite Rmult_0_r; unfold mx_inverse_loss; rewrite H0 by lia; reflexivity).
    assert (UM : forall a, mu_upper_cdf m (Fin a) = U a) by (intros a; unfold m; cbn [mx_methods mu_upper_cdf]; apply mu_fin). clearbody m.
    destruct fuel as [|[|[|[|fuel]]]]; try lia. cbn [interval_masses xltb xleb]. rewrite (Rltb_true x) by lra. rewrite (Rleb_false (2800 * 1)) by lra. rewrite I1. cbn [bind]. rewrite (round_half true 1).
    cbn [xltb]. rewrite (Rltb_true y1) by lra. change (1 - 1)%Z with 0%Z. cbn [xleb]. rewrite (Rleb_false (2800 * 0)) by lra. rewrite I0. cbn [bind]. rewrite (round_half true 0).
    cbn [xltb]. rewrite (Rltb_true y0) by lra. change (0 - 1)%Z with (-1)%Z. cbn [xleb]. rewrite (Rleb_true (2800 * -1)) by lra. cbn [bind]. rewrite (round_half true (-1)).
    cbn [xltb]. rewrite (Rltb_false (- z) (- z)) by lra. rewrite !UM. reflexivity.
  Qed.

  Lemma buckets_remove : yields (fun fuel => buckets_pmf fuel (mx_methods Phi ppf fuel 1 cs3 true lb3 REMOVE) true 2800) (fun p => pmf_delta p (Fin 2800) <= 1 / 10).
  Proof.
    destruct z_range as (_ & ZR). unfold buckets_pmf. cbn [mx_methods privacy_loss_tail is_discrete privacy_loss].
    apply (yields_bind _ _ _ _ tail_remove). intros t (x & Hx & ->). cbn [lower_x_truncation upper_x_truncation tail_masses dict2 xeqb].
    cbn [tail_infinity fold_right fst snd xeqb tail_rounded]. pose proof (loss_range (- z) ltac:(lra)) as LR. rewrite (div_ceil _ 0) by lra. cbn [bind].
    assert (LX : 4799 <= mx_loss 1 cs3 REMOVE x <= 4801) by (split; [apply loss_ge; lra | apply loss_le; intros s [->|[->| ->]]; lra]). rewrite (div_floor _ 1) by lra. cbn [bind].
    set (d0 := dadd [] 0 (1 - U (- z))). apply (yields_bind _ _ _ _ (interval_remove x d0 Hx)). intros d' (y1 & y0 & R1 & R0 & ED).
    destruct (create_pmf_total d' 2800 (U x) true) as (p & EP). rewrite EP. apply yields_ret.
    assert (U1 : U (- z) <= 1) by (rewrite U_eq; pose proof (phi_range (- z + 40)); pose proof (phi_range (- z + 80)); pose proof (phi_range (- z + 120)); lra).
    pose proof (U_small x ltac:(lra)) as SX. pose proof (U_small y1 ltac:(lra)) as SY. pose proof (U_mono x y1 ltac:(lra)). pose proof (U_mono y1 y0 ltac:(lra)). pose proof (U_mono y0 (- z) ltac:(lra)).
    assert (ND0 : NoDup (keys (@nil (Z * R)))) by constructor. assert (NN0 : nonneg_dict []) by (intros k; cbn; lra).
    assert (NDd0 : NoDup (keys d0)) by (apply NoDup_dadd, ND0). assert (NNd0 : nonneg_dict d0) by (apply nonneg_dadd; [exact ND0 | exact NN0 | lra]).
    destruct (create_pmf_ok d' 2800 (U x) true p ltac:(lra) ltac:(lra)) as (W & PS & EI & ED' & _); [| | exact EP|].
    - rewrite ED. repeat apply NoDup_dadd. exact ND0.
    - rewrite ED. repeat (apply nonneg_dadd; [repeat apply NoDup_dadd; exact ND0 | | lra]). exact NN0.
    - rewrite pmf_delta_psum by exact W. unfold ptest. rewrite ED', PS, EI, ED. unfold d0. rewrite !dsum_dadd by (repeat apply NoDup_dadd; exact ND0). rewrite !(no_gain 0), (no_gain 1) by lia.
      cbn [dsum rsum]. unfold dsum. cbn [rsum]. pose proof (gain_le 2). nra.
  Qed.
  Lemma buckets_add : yields (fun fuel => buckets_pmf fuel (mx_methods Phi ppf fuel 1 cs3 true lb3 ADD) true 2800) (fun p => pmf_delta p (Fin 2800) <= 1 / 10).
  Proof.
    destruct z_range as (EZ & ZR). pose proof U_100 as T. unfold buckets_pmf. cbn [mx_methods privacy_loss_tail is_discrete privacy_loss]. unfold mx_tail. rewrite lb_tail, Rmult_1_l. cbn [bind].
    cbn [lower_x_truncation upper_x_truncation tail_masses dict2 xeqb]. rewrite !mu_fin, !A_eq. rewrite !loss_add, Ropp_involutive.
    pose proof (loss_range (- z) ltac:(lra)) as L1. pose proof (loss_range' z ltac:(lra)) as L2.
    cbn [tail_infinity fold_right fst snd xeqb tail_rounded]. rewrite (div_ceil _ 1) by lra. cbn [bind]. rewrite (div_floor _ 0) by lra. cbn [bind].
    set (d0 := dadd [] 1 (1 - Phi (- z))). set (d1 := dadd d0 1 (Phi (- z) - Phi z)).
    apply (yields_bind _ _ (fun d => d = d1)).
    - exists 2%nat, d1. split; [reflexivity|]. intros fuel Hf. set (m := mx_methods Phi ppf fuel 1 cs3 true lb3 ADD).
      assert (UM : forall a, mu_upper_cdf m (Fin a) = Phi a) by (intros a; unfold m; cbn [mx_methods mu_upper_cdf]; rewrite mu_fin; apply A_eq). 
      match goal with |- interval_masses _ ?M _ _ _ _ _ _ _ = _ => change M with m end. clearbody m.
      destruct fuel as [|[|fuel]]; try lia. cbn [interval_masses xltb xleb]. rewrite (Rltb_true z) by lra. rewrite (Rleb_true (2800 * 0)) by lra. cbn [bind]. rewrite (round_half true 0). cbn [xltb]. rewrite (Rltb_false (- z) (- z)) by lra.
      rewrite !UM. reflexivity.
    - intros d ->. destruct (create_pmf_total d1 2800 (Phi z) true) as (p & EP). rewrite EP. apply yields_ret.
      pose proof (phi_range (- z)). pose proof (phi_mono z (- z) ltac:(lra)).
      assert (ND0 : NoDup (keys (@nil (Z * R)))) by constructor. assert (NN0 : nonneg_dict []) by (intros k; cbn; lra).
      destruct (create_pmf_ok d1 2800 (Phi z) true p ltac:(lra) ltac:(lra)) as (W & PS & EI & ED' & _); [| | exact EP|].
      + repeat apply NoDup_dadd. exact ND0.
      + repeat (apply nonneg_dadd; [repeat apply NoDup_dadd; exact ND0 | | lra]). exact NN0.
      + rewrite pmf_delta_psum by exact W. unfold ptest. rewrite ED', PS, EI. unfold d1, d0. rewrite !dsum_dadd by (repeat apply NoDup_dadd; exact ND0). rewrite !(no_gain 1) by lia.
        unfold dsum. cbn [rsum]. lra.
  Qed.
  Lemma buckets_wrong : yields (fun fuel => from_mixture_gaussian_mechanism Phi ppf fuel 1 sens3 probs3 true 2800 lb3 false) (fun D => pld_delta D (Fin 2800) <= 1 / 10).
  Proof.
    unfold from_mixture_gaussian_mechanism. cbv zeta. rewrite (new3 lb3 lb_neg). cbn [bind]. unfold mx_pmf. cbn [andb].
    apply (yields_bind _ _ _ _ buckets_remove). intros r Hr. apply (yields_bind _ _ _ _ buckets_add). intros a Ha. apply yields_ret.
    unfold pld_delta, new_pld. cbn [symmetric pmf_remove pmf_add]. apply Rmax_lub; assumption.
  Qed.

  Lemma query3 : exists E, mixture_query (normal_law Phi 1) cs3 E /\ 9 / 10 <= hockey_stick E 2800.
  Proof.
    exists (observe U (lower Phi 1 cs3 REMOVE) [- 76]). split; [|apply Rge_le, gap_query; reflexivity].
    exists 0, [- (40); - (80); - (120)], [- 76]. split; [|split].
    - unfold cs3, sens3, probs3. cbn [combine]. repeat constructor; cbn [fst]; rewrite Rabs_Ropp, Rabs_right; lra.
    - repeat constructor.
    - f_equal; apply functional_extensionality; intros x.
      + rewrite U_eq. unfold mixed, normal_law, cs3, sens3, probs3. cbn [combine map rsum fst snd]. rewrite !Rminus_0_r. replace ((x - - (40)) / 1) with (x + 40) by field. replace ((x - - (80)) / 1) with (x + 80) by field. replace ((x - - (120)) / 1) with (x + 120) by field. ring.
      + unfold lower, law, add_noise, normal_law. cbn. rewrite Rminus_0_r. reflexivity.
  Qed.
End Normal.
