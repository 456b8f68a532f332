(** The variational bound on the Renyi divergence, and the divergences of a pure guarantee. *)
From Verif Require Import Base Exn XReal SpecDP SpecRenyi SpecTesters ProofRenyi ProofTailBounds ProofTrained ProofSelectEnd.
Local Arguments Rltb : simpl never.
Local Arguments Reqb : simpl never.

(** Holder's inequality. *)
Lemma variational E a r (g : outcome E -> R) : valid E -> 1 < a -> renyi_bounded E (Fin a) (Fin r) ->
  a / (a - 1) * ln (rsum (fun o => prP E o * exp ((a - 1) * g o)) (outs E)) - ln (rsum (fun o => prQ E o * exp (a * g o)) (outs E)) <= r.
Proof.
  intros V Ha [AC [_ H]]. apply (renyi_moment_le E a r V AC Ha) in H. pose proof (moment_pos E V a) as HM.
  destruct V as (Hpos & HP & HQ). set (M := renyi_moment E a) in *.
  set (N := rsum (fun o => prQ E o * exp (a * g o)) (outs E)). set (m := rsum (fun o => prP E o * exp ((a - 1) * g o)) (outs E)).
  assert (Hweight : forall (p f : outcome E -> R) l, (forall o, In o l -> 0 <= p o) -> (forall o, 0 < f o) -> 0 < rsum p l -> 0 < rsum (fun o => p o * f o) l).
  { intros p f l Hp Hf. induction l as [|o l IH]; intros Hs; [cbn [rsum] in Hs; lra|]. cbn [rsum] in *.
    assert (Ho : 0 <= p o) by (apply Hp; left; reflexivity). pose proof (Hf o).
    destruct (Rle_lt_dec (rsum p l) 0) as [Hl|Hl].
    - assert (0 <= rsum (fun o => p o * f o) l).
      { apply rsum_nonneg. intros b Hb. apply Rmult_le_pos; [apply Hp; right; exact Hb|left; apply Hf]. }
      assert (0 < p o * f o) by (apply Rmult_lt_0_compat; lra). lra.
    - assert (0 < rsum (fun o => p o * f o) l) by (apply IH; [intros b Hb; apply Hp; right; exact Hb|exact Hl]).
      assert (0 <= p o * f o) by (apply Rmult_le_pos; lra). lra. }
  assert (HN : 0 < N) by (apply Hweight; [intros o Ho; apply Hpos; exact Ho|intros; apply exp_pos|rewrite HQ; lra]).
  assert (Hm : 0 < m) by (apply Hweight; [intros o Ho; apply Hpos; exact Ho|intros; apply exp_pos|rewrite HP; lra]).
  set (W := / a * ln M + (1 - / a) * ln N).
  assert (Ia : 0 < / a < 1).
  { split; [apply Rinv_0_lt_compat; lra|]. rewrite <- Rinv_1. apply Rinv_lt_contravar; lra. }
  assert (Hmw : m <= exp W).
  { apply Rle_trans with (rsum (fun o => exp W * (/ a / M * (if Reqb (prP E o) 0 then 0 else prP E o * Rpower (prP E o / prQ E o) (a - 1))
                                          + (1 - / a) / N * (prQ E o * exp (a * g o)))) (outs E)).
    - apply rsum_le. intros o Ho. destruct (Hpos o Ho) as [Hp Hq].
      destruct (Reqb_spec (prP E o) 0) as [Z|Z].
      + rewrite Z. rewrite Rmult_0_l, Rmult_0_r, Rplus_0_l. apply Rmult_le_pos; [apply Rlt_le, exp_pos|].
        apply Rmult_le_pos; [apply Rmult_le_pos; [lra|apply Rlt_le, Rinv_0_lt_compat; exact HN]|].
        apply Rmult_le_pos; [exact Hq|apply Rlt_le, exp_pos].
      + assert (Hp' : 0 < prP E o) by lra.
        assert (Hq' : 0 < prQ E o). { destruct (Req_dec (prQ E o) 0) as [K|K]; [exfalso; apply Z, (AC o Ho K)|lra]. }
        set (p := prP E o) in *. set (q := prQ E o) in *.
        pose proof (exp_convex (/ a) (ln p + (a - 1) * (ln p - ln q) - ln M) (ln q + a * g o - ln N) ltac:(lra)) as Y.
        replace (/ a * (ln p + (a - 1) * (ln p - ln q) - ln M) + (1 - / a) * (ln q + a * g o - ln N))
          with (ln p + (a - 1) * g o - W) in Y by (unfold W; field; lra).
        unfold Rminus in Y. rewrite !exp_plus, !exp_Ropp in Y. rewrite !exp_ln in Y by assumption.
        unfold Rpower. rewrite (ln_div p q Hp' Hq').
        replace (p * exp ((a - 1) * g o)) with (exp W * (p * exp ((a - 1) * g o) * / exp W)) by (field; apply Rgt_not_eq, exp_pos).
        apply Rmult_le_compat_l; [apply Rlt_le, exp_pos|]. eapply Rle_trans; [apply Y|]. unfold Rdiv, Rminus. right. ring.
    - rewrite rsum_scal, rsum_plus, !rsum_scal. fold N. fold (renyi_moment E a). fold M.
      right. replace (/ a / M * M) with (/ a) by (field; lra). replace ((1 - / a) / N * N) with (1 - / a) by (field; lra). ring. }
  assert (Hl : ln m <= W). { rewrite <- (ln_exp W). apply ln_le_mono; assumption. }
  assert (HlM : ln M <= (a - 1) * r). { rewrite <- (ln_exp ((a - 1) * r)). apply ln_le_mono; assumption. }
  assert (K : a / (a - 1) * ln m <= a / (a - 1) * W).
  { apply Rmult_le_compat_l; [|exact Hl]. apply Rlt_le, Rmult_lt_0_compat; [lra|apply Rinv_0_lt_compat; lra]. }
  replace (a / (a - 1) * W) with (/ (a - 1) * ln M + ln N) in K by (unfold W; field; lra).
  assert (/ (a - 1) * ln M <= / (a - 1) * ((a - 1) * r)) by (apply Rmult_le_compat_l; [apply Rlt_le, Rinv_0_lt_compat; lra|exact HlM]).
  replace (/ (a - 1) * ((a - 1) * r)) with r in H0 by (field; lra). lra.
Qed.

(** A pure guarantee bounds the ratio of the probabilities. *)
Lemma pure_pointwise E eps : valid E -> dp E eps 0 -> forall o, In o (outs E) -> prP E o <= exp eps * prQ E o.
Proof.
  intros _ H o Ho. destruct (Rle_lt_dec (prP E o) (exp eps * prQ E o)) as [K|K]; [exact K|exfalso].
  specialize (H (fun o => Rltb (exp eps * prQ E o) (prP E o))). unfold ProbP, ProbQ in H.
  set (S := fun o => Rltb (exp eps * prQ E o) (prP E o)) in *.
  assert (Hi : In o (filter S (outs E))) by (apply filter_In; split; [exact Ho|unfold S; apply Rltb_true; exact K]).
  assert (Ha : forall b, In b (filter S (outs E)) -> exp eps * prQ E b < prP E b).
  { intros b Hb. apply filter_In in Hb. destruct Hb as [_ Hb]. unfold S in Hb.
    destruct (Rltb_spec (exp eps * prQ E b) (prP E b)); [assumption|discriminate]. }
  rewrite <- rsum_scal, Rplus_0_r in H. revert Hi Ha H. generalize (filter S (outs E)) as l. induction l as [|b l IH]; intros Hi Ha Hs; [destruct Hi|].
  cbn [rsum] in Hs. pose proof (Ha b (or_introl eq_refl)) as Hb.
  assert (Hl : rsum (fun o => exp eps * prQ E o) l <= rsum (prP E) l).
  { apply rsum_le. intros c Hc. left. apply Ha. right. exact Hc. }
  lra.
Qed.

Lemma power_chord a x lo hi : 1 <= a -> 0 < lo < hi -> lo <= x <= hi ->
  Rpower x a <= ((hi - x) * Rpower lo a + (x - lo) * Rpower hi a) / (hi - lo).
Proof.
  intros Ha Hlh Hx.
  assert (T : forall y, 0 < y -> Rpower x a * (1 + a * (y / x - 1)) <= Rpower y a).
  { intros y Hy. assert (0 < y / x) by (apply Rmult_lt_0_compat; [lra|apply Rinv_0_lt_compat; lra]).
    pose proof (bernoulli a (y / x) Ha H) as B.
    apply Rle_trans with (Rpower x a * Rpower (y / x) a); [apply Rmult_le_compat_l; [apply Rlt_le, exp_pos|exact B]|].
    rewrite Rpower_mult_distr by lra. right. f_equal. field. lra. }
  pose proof (T lo ltac:(lra)) as T1. pose proof (T hi ltac:(lra)) as T2.
  apply (Rmult_le_reg_r (hi - lo)); [lra|]. unfold Rdiv at 1. rewrite Rmult_assoc, Rinv_l, Rmult_1_r by lra.
  apply (Rmult_le_compat_l (hi - x)) in T1; [|lra]. apply (Rmult_le_compat_l (x - lo)) in T2; [|lra].
  assert (E : (hi - x) * (Rpower x a * (1 + a * (lo / x - 1))) + (x - lo) * (Rpower x a * (1 + a * (hi / x - 1))) = Rpower x a * (hi - lo)) by (field; lra).
  lra.
Qed.

Lemma pure_renyi E eps a : valid E -> 0 < eps -> 1 < a -> dp E eps 0 -> dp (swap E) eps 0 ->
  renyi_bounded E (Fin a) (Fin (Rmin eps (2 * a * (eps * eps)))).
Proof.
  intros V He Ha H1 H2. pose proof (pure_pointwise E eps V H1) as K1.
  assert (V' : valid (swap E)) by (destruct V as (A & B & C); split; [intros o Ho; split; apply A; exact Ho|split; assumption]).
  pose proof (pure_pointwise (swap E) eps V' H2) as K2. cbn [swap outs prP prQ] in K2.
  assert (AC : absolutely_continuous E).
  { intros o Ho Z. pose proof (K1 o Ho) as K. rewrite Z, Rmult_0_r in K. destruct V as (A & _). destruct (A o Ho). lra. }
  split; [exact AC|]. split; [lra|]. apply Rmin_glb; [apply (renyi_max E a eps V K1 Ha)|].
  apply (renyi_moment_le E a _ V AC Ha). destruct V as (Hpos & HP & HQ).
  set (y := exp eps). assert (Hy : 1 < y) by (unfold y; rewrite <- exp_0; apply exp_increasing; exact He).
  assert (Hiy : 0 < / y < 1) by (split; [apply Rinv_0_lt_compat; lra|rewrite <- Rinv_1; apply Rinv_lt_contravar; lra]).
  set (L := Rpower (/ y) a). set (U := Rpower y a).
  assert (B : renyi_moment E a <= ((y - 1) * L + (1 - / y) * U) / (y - / y)).
  { apply Rle_trans with (rsum (fun o => ((y * prQ E o - prP E o) * L + (prP E o - / y * prQ E o) * U) / (y - / y)) (outs E)).
    - unfold renyi_moment. apply rsum_le. intros o Ho. destruct (Hpos o Ho) as [Hp Hq]. specialize (K1 o Ho). specialize (K2 o Ho). fold y in K1, K2.
      destruct (Reqb_spec (prP E o) 0) as [Z|Z].
      + assert (Zq : prQ E o = 0) by (rewrite Z in K2; lra). rewrite Z, Zq. right. unfold Rdiv. ring.
      + assert (Hp' : 0 < prP E o) by lra.
        assert (Hq' : 0 < prQ E o). { destruct (Req_dec (prQ E o) 0) as [K|K]; [exfalso; apply Z, (AC o Ho K)|lra]. }
        set (p := prP E o) in *. set (q := prQ E o) in *.
        assert (Hr : / y <= p / q <= y).
        { split.
          - apply (Rmult_le_reg_r (y * q)); [nra|]. replace (/ y * (y * q)) with q by (field; lra). replace (p / q * (y * q)) with (y * p) by (field; lra). exact K2.
          - apply (Rmult_le_reg_r q); [lra|]. replace (p / q * q) with p by (field; lra). lra. }
        pose proof (power_chord a (p / q) (/ y) y ltac:(lra) ltac:(lra) Hr) as C. fold L U in C.
        assert (E1 : p * Rpower (p / q) (a - 1) = q * Rpower (p / q) a).
        { assert (0 < p / q) by lra. replace (Rpower (p / q) a) with (Rpower (p / q) (a - 1) * (p / q)).
          - field. lra.
          - rewrite <- (Rpower_1 (p / q)) at 2 by assumption. rewrite <- Rpower_plus. f_equal. ring. }
        rewrite E1. apply (Rmult_le_compat_l q) in C; [|lra]. eapply Rle_trans; [exact C|]. right. field. repeat split; nra.
    - rewrite (rsum_ext _ (fun o => prQ E o * ((y * L - / y * U) / (y - / y)) + prP E o * ((U - L) / (y - / y)))).
      2:{ intros o _. field. repeat split; nra. }
      rewrite rsum_plus.
      rewrite (rsum_ext (fun o => prQ E o * _) (fun o => ((y * L - / y * U) / (y - / y)) * prQ E o)) by (intros; ring).
      rewrite (rsum_ext (fun o => prP E o * _) (fun o => ((U - L) / (y - / y)) * prP E o)) by (intros; ring).
      rewrite !rsum_scal, HP, HQ. right. field. repeat split; nra. }
  eapply Rle_trans; [exact B|]. set (s := a - 1). set (w := y / (y + 1)).
  assert (EU : U = y * exp (s * eps)). { unfold U, Rpower, y, s. rewrite ln_exp, <- exp_plus. f_equal. ring. }
  assert (EL : L = / y * exp (- (s * eps))). { unfold L, Rpower, y, s. rewrite <- exp_Ropp, ln_exp, <- exp_plus. f_equal. ring. }
  assert (EV : ((y - 1) * L + (1 - / y) * U) / (y - / y) = (1 - w + w * exp (2 * (s * eps))) * exp (- (s * eps))).
  { rewrite Rmult_plus_distr_r, Rmult_assoc, <- exp_plus. replace (2 * (s * eps) + - (s * eps)) with (s * eps) by ring.
    rewrite EU, EL. unfold w. field. repeat split; nra. }
  rewrite EV. assert (Hs : 0 < s) by (unfold s; lra). assert (Hse : 0 < s * eps) by (apply Rmult_lt_0_compat; lra).
  assert (Hw : 0 <= w <= 1).
  { unfold w. split; [apply Rmult_le_pos; [lra|apply Rlt_le, Rinv_0_lt_compat; lra]|]. apply (Rmult_le_reg_r (y + 1)); [lra|].
    unfold Rdiv. rewrite Rmult_assoc, Rinv_l by lra. lra. }
  pose proof (two_point w (2 * (s * eps)) Hw ltac:(lra)) as T.
  apply Rle_trans with (exp (w * (2 * (s * eps)) + 2 * (s * eps) * (2 * (s * eps)) / 8) * exp (- (s * eps))).
  { apply Rmult_le_compat_r; [apply Rlt_le, exp_pos|exact T]. }
  rewrite <- exp_plus. apply exp_le.
  assert (H2w : 2 * w - 1 <= eps).
  { unfold w. replace (2 * (y / (y + 1)) - 1) with ((y - 1) / (y + 1)) by (field; lra).
    apply (Rmult_le_reg_r (y + 1)); [lra|]. unfold Rdiv. rewrite Rmult_assoc, Rinv_l, Rmult_1_r by lra.
    pose proof (exp_ineq1_le (- eps)) as X. rewrite exp_Ropp in X. fold y in X. apply (Rmult_le_compat_l y) in X; [|lra].
    rewrite Rinv_r in X by lra. nra. }
  replace a with (s + 1) by (unfold s; ring). replace (s + 1 - 1) with s by ring.
  assert (s * eps * (2 * w - 1) <= s * eps * eps) by (apply Rmult_le_compat_l; lra).
  assert (0 <= s * eps * eps) by nra. assert (0 <= (s * eps) * (s * eps)) by nra. nra.
Qed.
