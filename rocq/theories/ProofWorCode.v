(** The accountant's bound for Gaussian noise on a sample without replacement. *)
From Coq Require Import Permutation FunctionalExtensionality.
From Verif Require Import Base XReal Exn TypesEvent TypesRelation SpecEvent SpecDP SpecMake SpecMech SpecRenyi SpecRdp SpecNoiseAcc SpecAccPld SpecAccountant SpecWor SpecRdpEvent.
From Verif Require ProofNormal.
From Verif Require Import ModelMake ModelRdp ProofDP ProofRenyi ProofRdpMath ProofConv ProofPoisson ProofObserve ProofGaussRdp ProofLedger ProofTree ProofRdpAtom ProofRdpSample ProofWorGauss ProofWorMix ProofWorSample.
Local Open Scope R_scope.
Local Arguments Rltb : simpl never.
Local Arguments Rleb : simpl never.
Local Arguments Reqb : simpl never.

(** ** The values of the code *)
Lemma lmin_exp x y : lexp (lmin x y) = Rmin (lexp x) (lexp y).
Proof.
  unfold lmin. destruct (lltb y x) eqn:E.
  - apply lltb_exp in E. rewrite Rmin_right; lra.
  - destruct (Rle_lt_dec (lexp x) (lexp y)) as [L|L]; [rewrite Rmin_left; lra|]. apply lltb_exp in L. congruence.
Qed.
Lemma ladd_exp x y : lexp (ladd x y) = lexp x * lexp y.
Proof. destruct x, y; cbn; try ring. apply exp_plus. Qed.
Lemma central_nonneg l : forall h, 0 <= h -> even l -> 0 <= central h l 1.
Proof.
  intros h Hh He. unfold central. destruct (Nat.eq_dec l 0) as [->|N]; [cbn; rewrite Rmult_1_l; left; apply exp_pos|].
  assert (G : fdiff (fun k => 1 ^ k * em 0 k) l 0 = 0).
  { rewrite (fdiff_ext _ (fun k => 1 ^ k)) by (intros k; unfold em; rewrite Rmult_0_r, exp_0; ring). rewrite fdiff_pow, Rminus_diag_eq by reflexivity. rewrite (pow_i l) by lia. ring. }
  rewrite <- G. fold (central 0 l 1). fold (central h l 1). destruct (ProofNormal.normal_cdf_exists) as (Phi & HC & c & Hc & HD).
  eapply central_mono; try eassumption. lra.
Qed.
Section Values.
  Context (q h : R) (Hq : 0 < q < 1) (Hh : 0 < h).
  Lemma delta_value n k : (1 <= k)%nat -> even k -> (k <= n + 2)%nat -> lexp (snd (nth (k - 1) (get_forward_diffs (wor_cgf h) n) (false, Some 0))) = central h k 1.
  Proof.
    intros H1 He Hk. destruct (forward_diffs_spec (wor_cgf h) n (k - 1) ltac:(lia)) as [_ E]. replace (k - 1 + 1)%nat with k in E by lia.
    rewrite (fdiff_ext _ (fun k => 1 ^ k * em h k)) in E.
    - fold (central h k 1) in E. unfold sval in E. set (d := nth _ _ _) in *. pose proof (central_nonneg k h ltac:(lra) He) as P. pose proof (lexp_nonneg (snd d)).
      destruct (fst d); lra.
    - intros [|i]; unfold em, wor_cgf; rewrite pow1, Rmult_1_l; [cbn [INR]; rewrite !Rmult_0_l, exp_0; reflexivity|]. f_equal. rewrite S_INR. ring.
  Qed.
  Lemma em_cgf i : (1 <= i)%nat -> exp (wor_cgf h (i - 1)) = em h i.
  Proof. intros H. unfold wor_cgf, em. f_equal. destruct i as [|i]; [lia|]. replace (S i - 1)%nat with i by lia. rewrite S_INR. ring. Qed.
  Lemma first_value n : exp (wor_first q h n) = C n 2 * q ^ 2 * Rmin (narrow h 2) (wide h 2).
  Proof.
    unfold wor_first. rewrite !exp_plus, log_comb_exp.
    assert (E2 : exp (2 * ln q) = q ^ 2) by (replace (2 * ln q) with (ln q + ln q) by ring; rewrite exp_plus, exp_ln by lra; ring).
    assert (M : em h 2 = exp (2 * h)) by (unfold em; f_equal; cbn [INR]; ring).
    assert (Lt : exp (- (2 * h)) < 1) by (apply (Rlt_le_trans _ (exp 0)); [apply exp_increasing; lra | rewrite exp_0; lra]).
    assert (A : exp (ln 4 + (2 * h + ln (1 + - exp (- (2 * h))))) = narrow h 2).
    { unfold narrow. cbn [Nat.eqb]. rewrite !exp_plus, !exp_ln by lra. rewrite M. assert (X : exp (2 * h) * exp (- (2 * h)) = 1) by (rewrite <- exp_plus, Rplus_opp_r; apply exp_0). nra. }
    assert (B : exp (2 * h + ln 2) = wide h 2) by (unfold wide; rewrite exp_plus, exp_ln, M by lra; ring).
    assert (Mn : forall u v, exp (Rmin u v) = Rmin (exp u) (exp v)).
    { intros u v. destruct (Rle_lt_dec u v) as [L|L]; [rewrite !Rmin_left; try lra; try reflexivity; apply exp_le, L|]. rewrite !Rmin_right; try lra; try reflexivity. left. apply exp_increasing, L. }
    rewrite E2, Mn, A, B. ring.
  Qed.
  Lemma exact_value n i : (2 <= i <= n)%nat -> lexp (wor_exact_term q h n (get_forward_diffs (wor_cgf h) n) i) = C n i * q ^ i * Rmin (narrow h i) (wide h i).
  Proof.
    intros Hi. unfold wor_exact_term. destruct (Nat.eqb_spec i 2) as [->|N]; [apply first_value|].
    pose proof (halves i) as Hv. assert (H3 : (1 <= i / 2)%nat) by (apply (Nat.div_le_lower_bound i 2 1); lia).
    assert (H4 : (1 <= (i + 1) / 2)%nat) by (apply (Nat.div_le_lower_bound (i + 1) 2 1); lia).
    assert (H5 : (2 * ((i + 1) / 2) <= i + 1)%nat) by (apply Nat.mul_div_le; lia). assert (H6 : (2 * (i / 2) <= i)%nat) by (apply Nat.mul_div_le; lia).
    assert (L1 : (1 <= half_lo i /\ half_lo i <= n + 2)%nat) by (unfold half_lo; split; lia). assert (L2 : (1 <= half_hi i /\ half_hi i <= n + 2)%nat) by (unfold half_hi; split; lia).
    pose proof (delta_value n (half_lo i) (proj1 L1) ltac:(exists (i / 2)%nat; reflexivity) (proj2 L1)) as Lo.
    pose proof (delta_value n (half_hi i) (proj1 L2) ltac:(exists ((i + 1) / 2)%nat; reflexivity) (proj2 L2)) as Hi'.
    unfold half_lo, half_hi in Lo, Hi'. cbv zeta.
    set (lo := snd (nth (2 * (i / 2) - 1) _ _)) in *. set (hi := snd (nth (2 * ((i + 1) / 2) - 1) _ _)) in *.
    set (sl := match ladd lo hi with Some x => Some (ln 4 + / 2 * x) | None => None end).
    rewrite ladd_exp, lmin_exp. change (lexp (Some (ln 2 + wor_cgf h (i - 1)))) with (exp (ln 2 + wor_cgf h (i - 1))).
    change (lexp (Some (INR i * ln q + log_comb n i))) with (exp (INR i * ln q + log_comb n i)). rewrite !exp_plus, log_comb_exp, exp_ln by lra. rewrite em_cgf by lia.
    assert (Eq : exp (INR i * ln q) = q ^ i) by (rewrite <- (exp_ln q) at 2 by lra; rewrite exp_pow; reflexivity). rewrite Eq.
    replace (lexp sl) with (narrow h i).
    - unfold wide. ring.
    - unfold narrow. destruct (Nat.eqb_spec i 2); [lia|]. unfold half_lo, half_hi. rewrite <- Lo, <- Hi'. rewrite <- ladd_exp. unfold sl. destruct (ladd lo hi) as [x|]; cbn [lexp].
      + rewrite exp_plus, exp_ln by lra. f_equal. apply sqrt_lem_1; [left; apply exp_pos .. |]. rewrite <- exp_plus. f_equal. field.
      + rewrite sqrt_0. ring.
  Qed.
  Lemma stirling_value n i : (2 <= i <= n)%nat -> C n i * q ^ i * Rmin (narrow h i) (wide h i) <= lexp (wor_stirling_term q h n i).
  Proof.
    intros Hi. unfold wor_stirling_term. destruct (Nat.eqb_spec i 2) as [->|N]; cbn [lexp]; [rewrite first_value; lra|].
    rewrite !exp_plus, log_comb_exp, exp_ln, em_cgf by (lra || lia).
    assert (Eq : exp (INR i * ln q) = q ^ i) by (rewrite <- (exp_ln q) at 2 by lra; rewrite exp_pow; reflexivity). rewrite Eq. fold (wide h i).
    replace (wide h i * q ^ i * C n i) with (C n i * q ^ i * wide h i) by ring. apply Rmult_le_compat_l; [|apply Rmin_r].
    apply Rmult_le_pos; [rewrite <- log_comb_exp; left; apply exp_pos | apply pow_le; lra].
  Qed.
  Lemma fold_value (t : nat -> logp) l : forall x, lexp (fold_left (fun a i => log_add a (t i)) l x) = lexp x + rsum (fun i => lexp (t i)) l.
  Proof. induction l as [|i l IH]; intros x; cbn [fold_left rsum]; [ring|]. rewrite IH, log_add_exp. ring. Qed.
  Definition expansion (n : nat) : R := 1 + rsum (fun i => C n i * q ^ i * Rmin (narrow h i) (wide h i)) (seq 2 (n - 1)).
  Lemma wor_value n : (1 <= n)%nat -> exists x, wor_int q h n = Some x /\ expansion n <= exp x.
  Proof.
    intros Hn. assert (G : expansion n <= lexp (wor_int q h n)).
    { unfold wor_int, expansion. destruct (Nat.eqb_spec n 1) as [->|N]; [cbn; rewrite exp_0; lra|]. rewrite fold_value. cbn [lexp]. rewrite exp_0. apply Rplus_le_compat_l.
      apply rsum_le. intros i Hi. apply in_seq in Hi. destruct (n <=? 256)%nat; [rewrite exact_value by lia; lra | apply stirling_value; lia]. }
    destruct (wor_int q h n) as [x|] eqn:E; [exists x; split; [reflexivity | exact G]|]. exfalso. cbn [lexp] in G.
    assert (0 <= rsum (fun i => C n i * q ^ i * Rmin (narrow h i) (wide h i)) (seq 2 (n - 1))); [|unfold expansion in G; lra].
    apply rsum_nonneg. intros i Hi. apply in_seq in Hi. destruct (Nat.le_gt_cases n 256) as [|].
    - rewrite <- exact_value by lia. apply lexp_nonneg.
    - apply Rmult_le_pos; [apply Rmult_le_pos; [rewrite <- log_comb_exp; left; apply exp_pos | apply pow_le; lra]|]. apply Rmin_glb.
      + unfold narrow. destruct (i =? 2)%nat; [|apply Rmult_le_pos; [lra | apply sqrt_pos]]. assert (1 <= em h 2); [|lra]. unfold em. apply (Rle_trans _ (exp 0)); [rewrite exp_0; lra|]. apply exp_le. cbn [INR]. lra.
      + unfold wide, em. pose proof (exp_pos (INR i * (INR i - 1) * h)). lra.
  Qed.
End Values.

(** ** Orders between two others *)
Lemma moment_between E f c t x y : valid E -> absolutely_continuous E -> 0 <= t <= 1 -> renyi_moment E f <= exp x -> renyi_moment E c <= exp y ->
  renyi_moment E ((1 - t) * f + t * c) <= exp ((1 - t) * x + t * y).
Proof.
  intros V AC Ht Hf Hc.
  apply Rle_trans with (exp ((1 - t) * x + t * y) * ((1 - t) * (exp (- x) * renyi_moment E f) + t * (exp (- y) * renyi_moment E c))).
  - unfold renyi_moment. rewrite <- !rsum_scal, <- rsum_plus, <- rsum_scal. apply rsum_le. intros o Ho. destruct (Reqb_spec (prP E o) 0) as [Z|N]; [lra|].
    destruct (proj1 V o Ho) as [P0 _]. set (z := ln (prP E o / prQ E o)). unfold Rpower. fold z.
    pose proof (exp_convex (1 - t) ((f - 1) * z - x) ((c - 1) * z - y) ltac:(lra)) as X. replace (1 - (1 - t)) with t in X by ring.
    replace (exp (((1 - t) * f + t * c - 1) * z)) with (exp ((1 - t) * x + t * y) * exp ((1 - t) * ((f - 1) * z - x) + t * ((c - 1) * z - y))) by (rewrite <- exp_plus; f_equal; ring).
    replace ((f - 1) * z - x) with (- x + (f - 1) * z) in * by ring. replace ((c - 1) * z - y) with (- y + (c - 1) * z) in * by ring. rewrite !(exp_plus (- x)), !(exp_plus (- y)) in X.
    set (A := exp (- x)) in *. set (B := exp (- y)) in *. set (U := exp ((f - 1) * z)) in *. set (W := exp ((c - 1) * z)) in *.
    set (K := exp ((1 - t) * x + t * y)). pose proof (exp_pos ((1 - t) * x + t * y)) as KP. fold K in KP.
    apply (Rmult_le_compat_l (K * prP E o)) in X; [|apply Rmult_le_pos; lra]. lra.
  - pose proof (exp_pos ((1 - t) * x + t * y)) as KP. rewrite <- (Rmult_1_r (exp ((1 - t) * x + t * y))) at 2. apply Rmult_le_compat_l; [lra|].
    assert (A : exp (- x) * renyi_moment E f <= 1).
    { apply (Rmult_le_compat_l (exp (- x))) in Hf; [|left; apply exp_pos]. rewrite <- exp_plus, Rplus_opp_l, exp_0 in Hf. exact Hf. }
    assert (B : exp (- y) * renyi_moment E c <= 1).
    { apply (Rmult_le_compat_l (exp (- y))) in Hc; [|left; apply exp_pos]. rewrite <- exp_plus, Rplus_opp_l, exp_0 in Hc. exact Hc. }
    nra.
Qed.
Lemma moment_one E : valid E -> renyi_moment E 1 = 1.
Proof.
  intros V. transitivity (rsum (prP E) (outs E)); [|apply (P_sum E V)]. apply rsum_ext. intros o Ho. destruct (Reqb_spec (prP E o) 0) as [Z|N]; [lra|]. unfold Rpower. rewrite Rminus_diag_eq, Rmult_0_l, exp_0 by reflexivity. ring.
Qed.

(** ** What is computed on the sample *)
Section Sample.
  Context (Phi : R -> R) (HPhi : normal_cdf Phi).
  Notation gq := (gaussian_query Phi).
  Notation inv2 := (fun t => / (t * t)).
  Definition spread (h : R) (E : exper) : Prop := forall l c, even l -> rsum (fun o => prQ E o * (c * (prP E o / prQ E o) - 1) ^ l) (outs E) <= central h l c.
  Lemma gauss_spread sigma E : 0 < sigma -> gq sigma E -> spread (/ (2 * (sigma * sigma))) E.
  Proof.
    intros Hs H l c He. destruct (gauss_form Phi HPhi sigma Hs E H) as (w & v & d & cuts & Hw & Hd & HS & E1 & _ & _).
    destruct HPhi as (HC & c0 & Hc & HD). rewrite E1. eapply Rle_trans; [eapply cells_central; eassumption|].
    replace (/ (2 * (sigma * sigma))) with (/ (sigma * sigma) / 2) by (field; lra).
    eapply central_mono; try eassumption; [pose proof (Rle_0_sqr (d / w)) as S; unfold Rsqr in S; lra | lra].
  Qed.
  Lemma joint_spread sigmas E : Forall (fun t => 0 < t) sigmas -> joint (map gq sigmas) E -> spread (rsum inv2 sigmas / 2) E.
  Proof.
    intros F J. remember (map gq sigmas) as Cs eqn:EC. revert sigmas EC F. induction J as [|Cs E C E' J IH HC]; intros sigmas EC F.
    - destruct sigmas; [|discriminate]. intros l c He. cbn [rsum outs silent prP prQ]. replace (0 / 2) with 0 by field.
      unfold central. rewrite (fdiff_ext _ (fun k => c ^ k)) by (intros k; unfold em; rewrite Rmult_0_r, exp_0; ring). rewrite fdiff_pow. cbn [pow]. right.
      replace (c * (1 / 1) - 1) with (c - 1) by field. ring.
    - symmetry in EC. apply map_eq_app in EC. destruct EC as (s1 & s2 & -> & E1 & E2). destruct s2 as [|t [|]]; try discriminate. injection E2 as E2.
      apply Forall_app in F. destruct F as [F1 F2]. inversion_clear F2 as [|? ? Ht _]. specialize (IH s1 (eq_sym E1) F1). subst C.
      destruct (joint_bounded Phi HPhi s1 E 1 F1) as [V _]; [rewrite E1; exact J | lra|].
      pose proof (gauss_spread t E' Ht HC) as G. intros l c He. destruct HPhi as (HC' & c0 & Hc & HD).
      rewrite rsum_app. replace ((rsum inv2 s1 + rsum inv2 [t]) / 2) with (rsum inv2 s1 / 2 + / (2 * (t * t))) by (cbn [rsum]; field; lra).
      eapply (central_seq Phi c0 Hc HC' HD).
      + left. apply Rinv_0_lt_compat. nra.
      + intros o Ho. apply V, Ho.
      + intros b. apply IH, He.
      + intros b. apply G, He.
  Qed.
  Lemma spread_close s E : 0 < s -> valid E -> spread (/ (2 * (s * s))) E -> (forall a, 1 <= a -> rdp_bounded E (Fin a) (Fin (a / (2 * (s * s))))) -> close (/ (2 * (s * s))) E.
  Proof.
    intros Hs V Sp B. destruct (B 1 ltac:(lra)) as [[AC _] [AS _]]. split; [exact V|]. split; [exact AC|]. split; [exact AS|]. split.
    - intros j Hj. assert (J2 : 2 <= INR j) by (apply (le_INR 2), Hj). destruct (B (INR j) ltac:(lra)) as [[_ [_ M]] _].
      apply (renyi_moment_le E (INR j) _ V AC ltac:(lra)) in M. rewrite <- base_moment in M by (try assumption; lia).
      eapply Rle_trans; [|eapply Rle_trans; [exact M|]].
      + right. apply rsum_ext. intros o Ho. destruct (Reqb_spec (prQ E o) 0) as [->|]; [ring | reflexivity].
      + right. unfold em. f_equal. field. lra.
    - intros l He. eapply Rle_trans; [|apply (Sp l 1 He)]. right. apply rsum_ext. intros o _. rewrite Rmult_1_l. reflexivity.
  Qed.
  Definition on_records (s : R) (E : exper) : Prop := valid E /\ (s = 0 \/ 0 < s /\ close (/ (2 * (s * s))) E /\ forall a, 1 <= a -> rdp_bounded E (Fin a) (Fin (a / (2 * (s * s))))).
  Lemma tree_positive : forall e, gaussian_tree e -> Forall (fun t => 0 < t) (map sigma_of (atoms e)).
  Proof.
    intros e T. apply Forall_forall. intros t. rewrite in_map_iff. intros (a & <- & I). revert T a I.
    induction e as [ | | | p k | sg | sg | e c IH | es IH | q e IH | a b e IH | a b e IH | sg l | e m sh IH | sg a b ] using event_ind'; intros T at0 I; try contradiction.
    - destruct I as [<-|[]]. destruct sg; try contradiction. exact T.
    - destruct T as [_ T]. cbn [atoms] in I. apply (IH T). clear -I. induction (Z.to_nat c) as [|n IHn]; cbn in I; [contradiction|]. apply in_app_iff in I. tauto.
    - destruct T as [_ T]. cbn [atoms] in I. apply in_flat_map in I. destruct I as (x & Ix & I). revert T.
      induction IH as [|y l Hy _ IHl]; [contradiction|]. intros [T1 T2]. destruct Ix as [->|Ix]; [apply Hy; assumption | apply IHl; assumption].
  Qed.
  Lemma records_of e E : sample_of Phi e E -> exists m s, effective_noise e = Ok (EffNum m) /\ nval m = Fin s /\ on_records s E.
  Proof.
    intros [(x & sigma & -> & Hx & N)|[T J]].
    - exists x, sigma. split; [reflexivity|]. split; [exact Hx|].
      destruct N as [[? _]|[_ [[-> V]|[Hs H]]]]; [lra | split; [assumption | left; reflexivity]|].
      assert (B : forall a, 1 <= a -> valid E /\ rdp_bounded E (Fin a) (Fin (a / (2 * (sigma * sigma))))) by (intros a Ha; apply gauss_bounded with (Phi := Phi); assumption).
      split; [apply (B 1); lra|]. right. split; [exact Hs|]. assert (B' : forall a, 1 <= a -> rdp_bounded E (Fin a) (Fin (a / (2 * (sigma * sigma))))) by (intros a Ha; apply (B a Ha)).
      split; [|exact B']. apply spread_close; [exact Hs | apply (B 1); lra | apply gauss_spread; assumption | exact B'].
    - destruct (gaussian_eff e T) as (s & Ef & Hs & Sum). exists (PyFloat s), s. split; [exact Ef|]. split; [reflexivity|].
      pose proof (tree_positive e T) as F.
      assert (M : map (fun a => gq (sigma_of a)) (atoms e) = map gq (map sigma_of (atoms e))) by (rewrite map_map; reflexivity). rewrite M in J.
      assert (Sum' : / (s * s) = rsum inv2 (map sigma_of (atoms e))) by (rewrite rsum_map; exact Sum).
      assert (B : forall a, 1 <= a -> valid E /\ rdp_bounded E (Fin a) (Fin (a / (2 * (s * s))))).
      { intros a Ha. replace (a / (2 * (s * s))) with (a * rsum inv2 (map sigma_of (atoms e)) / 2) by (rewrite <- Sum'; field; lra). apply (joint_bounded Phi HPhi); assumption. }
      split; [apply (B 1); lra|]. right. split; [exact Hs|]. assert (B' : forall a, 1 <= a -> rdp_bounded E (Fin a) (Fin (a / (2 * (s * s))))) by (intros a Ha; apply (B a Ha)).
      split; [|exact B']. apply spread_close; [exact Hs | apply (B 1); lra | | exact B'].
      replace (/ (2 * (s * s))) with (rsum inv2 (map sigma_of (atoms e)) / 2) by (rewrite <- Sum'; field; lra). apply joint_spread; assumption.
  Qed.
End Sample.

(** ** The bound *)
Section Bound.
  Context {X O : Type} (os : list O) (run : list X -> O -> R) (m : nat) (s : R).
  Context (Hs : 0 < s) (Hrun : forall u v, Permutation u v -> forall o, run u o = run v o).
  Context (Hclose : forall u v, length u = S m -> replaces u v -> close (/ (2 * (s * s))) (mkExper O os (run u) (run v))).
  Notation h := (/ (2 * (s * s))).
  Context (x y : X) (l : list X) (Hm : (m < length l)%nat).
  Notation g := (INR (S m) / INR (S (length l))).
  Notation is := (pairs (S m) l).
  Notation E := (mkExper O os (on_sample (S m) run (x :: l)) (on_sample (S m) run (y :: l))).
  Lemma E_mix : E = mkExper O os (mixP is g (fun vs => run (snd vs)) (fun vs => run (x :: fst vs))) (mixQ is g (fun vs => run (snd vs)) (fun vs => run (y :: fst vs))).
  Proof. f_equal; apply functional_extensionality; intros o; apply on_sample_mix; exact Hm. Qed.
  Lemma pair_close vs : In vs is -> close h (mkExper O os (run (x :: fst vs)) (run (snd vs))) /\ close h (mkExper O os (run (y :: fst vs)) (run (snd vs))) /\
    close h (mkExper O os (run (x :: fst vs)) (run (y :: fst vs))) /\ close h (mkExper O os (run (y :: fst vs)) (run (x :: fst vs))) /\ close h (mkExper O os (run (y :: fst vs)) (run (y :: fst vs))).
  Proof.
    destruct vs as [v u]. intros I. destruct (pairs_in l (S m) v u I) as (L & j & P). cbn [fst snd].
    assert (Lv : forall z : X, length (z :: v) = S m) by (intros z; rewrite <- L; rewrite (Permutation_length P); reflexivity).
    assert (R1 : forall z, replaces (z :: v) u) by (intros z; exists z, j, v; split; [reflexivity | exact P]).
    assert (R2 : forall z z', replaces (z :: v) (z' :: v)) by (intros z z'; exists z, z', v; split; reflexivity).
    split; [exact (Hclose _ _ (Lv _) (R1 _))|]. split; [exact (Hclose _ _ (Lv _) (R1 _))|]. split; [exact (Hclose _ _ (Lv _) (R2 _ _))|]. split; exact (Hclose _ _ (Lv _) (R2 _ _)).
  Qed.
  Lemma pair_valid i : In i is -> valid (mkExper O os (run (x :: fst i)) (run (snd i))) /\ valid (mkExper O os (run (y :: fst i)) (run (snd i))).
  Proof. intros Hi. destruct (pair_close i Hi) as (A & B & _). split; [apply A | apply B]. Qed.
  Lemma pair_zero i o : In i is -> In o os -> run (snd i) o = 0 \/ run (y :: fst i) o = 0 -> run (x :: fst i) o = 0 /\ run (y :: fst i) o = 0.
  Proof.
    intros Hi Ho Z. destruct (pair_close i Hi) as ((_ & A1 & A2 & _) & (_ & B1 & B2 & _) & _). specialize (A1 o Ho). specialize (B1 o Ho). specialize (B2 o Ho). cbn in *. tauto.
  Qed.
  Lemma pair_third i j : In i is -> (2 <= j)%nat -> third os j (run (x :: fst i)) (run (y :: fst i)) (run (snd i)) <= Rmin (narrow h j) (wide h j) /\
    third os j (run (x :: fst i)) (run (y :: fst i)) (run (y :: fst i)) <= Rmin (narrow h j) (wide h j).
  Proof. intros Hi Hj. destruct (pair_close i Hi) as (A & B & C & D & F). split; apply third_le; assumption. Qed.
  Lemma sample_valid : valid E /\ absolutely_continuous E.
  Proof.
    rewrite E_mix. split; [apply (mix_laws os is g (fun vs => run (snd vs)) (fun vs => run (x :: fst vs)) (fun vs => run (y :: fst vs)) (fun j => Rmin (narrow h j) (wide h j)))
      | apply (mix_acont os is g (fun vs => run (snd vs)) (fun vs => run (x :: fst vs)) (fun vs => run (y :: fst vs)) (fun j => Rmin (narrow h j) (wide h j)))];
    try exact pair_valid; try exact pair_zero; try exact pair_third; try (apply rate_range, Hm); apply pairs_some, Hm.
  Qed.
  Lemma sample_moment n : (1 <= n)%nat -> renyi_moment E (INR n) <= expansion g h n.
  Proof.
    intros Hn. destruct sample_valid as [V AC]. destruct (Nat.eq_dec n 1) as [->|N1].
    { change (INR 1) with 1. rewrite (moment_one E V). unfold expansion. cbn. lra. }
    rewrite E_mix. unfold expansion.
    apply (mix_power os is g (fun vs => run (snd vs)) (fun vs => run (x :: fst vs)) (fun vs => run (y :: fst vs)) (fun j => Rmin (narrow h j) (wide h j))); try lia;
      try exact pair_valid; try exact pair_zero; try exact pair_third; try (apply rate_range, Hm); apply pairs_some, Hm.
  Qed.
End Bound.
