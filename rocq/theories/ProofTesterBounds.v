(** The estimates are lower bounds of the divergences, and the hockey-stick estimate is large when
    the trained model separates the samples. *)
From Verif Require Import Base Exn XReal TypesAudit SpecDP SpecAudit SpecRenyi ModelAudit TypesTesters ModelTesters SpecTesters ProofDP ProofRenyi ProofHoeffding ProofTailBounds ProofTailSums ProofTrained ProofVariational ProofHockey ProofHockeyBad ProofRenyiTester ProofTesterEx.
Local Arguments Rltb : simpl never.
Local Arguments Rleb : simpl never.
Local Arguments Reqb : simpl never.

Lemma hockey_lower E c t W (keras : list (outcome E * bool) -> W -> res ((outcome E -> R) * W)) eps failure n w :
  new_hockey c = Ok t -> a_epsilon (hc_approximate c) = Some eps -> valid E -> 0 < failure ->
  mean (law_P E) n (fun s1 => mean (law_Q E) n (fun s2 =>
    indicator (rejects (fun vw => xltb (Fin (hockey_stick E eps)) (fst vw)) (hockey_estimate keras t s1 s2 failure w))))
  <= failure * exp (4 * sqrt (ln (1 / failure) / 2 / INR (n - n / 2))).
Proof.
  intros Hc Ee Hv Hf. apply new_hockey_inv in Hc. destruct Hc as (Ee' & _ & He & _ & Hb).
  rewrite Ee in Ee'. injection Ee' as ->. set (t' := mkHockey (hs_epsilon t) (hockey_stick E (hs_epsilon t)) 1).
  assert (Hdp : dp E (hs_epsilon t') (hs_delta t')) by (apply dp_iff_hockey; cbn; lra).
  assert (HP := law_P_ok E Hv). assert (HQ := law_Q_ok E Hv).
  rewrite (mean_ext (law_P E) n _ (fun s1 => mean (law_Q E) n (fun s2 =>
    indicator (rejects (fun vw => hockey_reject t' (fst vw)) (hockey_estimate keras t' (map (fun o => o) s1) (map (fun o => o) s2) failure w))))).
  2:{ intros s1 _ _. apply mean_ext. intros s2 _ _. rewrite !map_id. unfold hockey_estimate, hockey_compute, divergence_estimate, hockey_fit. rewrite Hb. reflexivity. }
  unfold hockey_estimate. apply (trained (law_P E) (law_Q E) (fun o => o) (fun o => o) (hockey_fit keras t') (hockey_compute t') (hockey_reject t') HP HQ).
  - intros g. apply (hockey_test (law_P E) (law_Q E) (fun o => o) (fun o => o) t' HP HQ (dp_expect E _ _ Hdp) eq_refl failure (n - n / 2) g Hf).
  - apply Rmult_le_pos; [lra|apply Rlt_le, exp_pos].
Qed.

(** The value when every test sample is classified correctly. *)
Lemma hockey_separated A c t W (keras : list (A * bool) -> W -> res ((A -> R) * W)) eps failure n s1 s2 w g w' :
  new_hockey c = Ok t -> a_epsilon (hc_approximate c) = Some eps -> 0 < failure <= 1 ->
  (2 <= n)%nat -> List.length s1 = n -> List.length s2 = n ->
  (forall data, keras data w = Ok (g, w')) -> (forall a, In a s1 -> g a <= 0) -> (forall a, In a s2 -> 0 < g a) ->
  hockey_estimate keras t s1 s2 failure w
  = Ok (Fin (1 - (1 + exp eps) * sqrt (ln (1 / failure) / 2 / INR (n - n / 2))), w').
Proof.
  intros Hc Ee Hf Hn L1 L2 Hk G1 G2. apply new_hockey_inv in Hc. destruct Hc as (Ee' & _ & He & _ & Hb).
  rewrite Ee in Ee'. injection Ee' as ->.
  assert (Hh : (n / 2 <= n)%nat) by (apply Nat.div_le_upper_bound; lia). assert (Hh2 : (n / 2 < n)%nat) by (apply Nat.div_lt; lia).
  unfold hockey_estimate, divergence_estimate, split_samples. rewrite L1, L2. destruct (Nat.eqb_spec n 1) as [K|_]; [lia|]. cbn [bind].
  unfold hockey_fit. rewrite Hk. cbn [bind]. set (m := (n - n / 2)%nat). assert (Hm : (0 < m)%nat) by (unfold m; lia).
  assert (M : 0 < INR m) by (apply lt_0_INR; exact Hm).
  assert (T1 : List.length (skipn (n / 2) s1) = m) by (rewrite skipn_length, L1; reflexivity).
  assert (T2 : List.length (skipn (n / 2) s2) = m) by (rewrite skipn_length, L2; reflexivity).
  assert (I1 : forall a, In a (skipn (n / 2) s1) -> g a <= 0).
  { intros a Ha. apply G1. rewrite <- (firstn_skipn (n / 2) s1). apply in_or_app. right. exact Ha. }
  assert (I2 : forall a, In a (skipn (n / 2) s2) -> 0 < g a).
  { intros a Ha. apply G2. rewrite <- (firstn_skipn (n / 2) s2). apply in_or_app. right. exact Ha. }
  set (b1 := skipn (n / 2) s1) in *. set (b2 := skipn (n / 2) s2) in *.
  unfold hockey_compute. rewrite (accuracy_value t m g b1 b2 Hm T1 T2). cbn [bind]. rewrite T1, T2, Nat.min_id, Hb.
  assert (S1 : rsum (wins1 g) (firstn (taken (hs_epsilon t) m) b1) = INR (taken (hs_epsilon t) m)).
  { rewrite (rsum_ext _ (fun _ => 1)).
    - rewrite rsum_const, firstn_length, T1. pose proof (taken_le (hs_epsilon t) m). rewrite Nat.min_l by exact H. ring.
    - intros a Ha. unfold wins1. rewrite Rltb_false; [reflexivity|]. apply I1. rewrite <- (firstn_skipn (taken (hs_epsilon t) m) b1). apply in_or_app. left. exact Ha. }
  assert (S2 : rsum (wins2 g) (skipn (taken (hs_epsilon t) m) b2) = INR m - INR (taken (hs_epsilon t) m)).
  { rewrite (rsum_ext _ (fun _ => 1)).
    - rewrite rsum_const, skipn_length, T2, minus_INR by apply taken_le. ring.
    - intros a Ha. unfold wins2. rewrite Rltb_true; [reflexivity|]. apply I2. rewrite <- (firstn_skipn (taken (hs_epsilon t) m) b2). apply in_or_app. right. exact Ha. }
  rewrite S1, S2. replace ((INR (taken (hs_epsilon t) m) + (INR m - INR (taken (hs_epsilon t) m))) / INR m) with 1 by (field; lra).
  unfold confidence_bound, py_div. rewrite Reqb_false by lra. cbn [bind].
  replace (1 / (1 - (1 - failure))) with (1 / failure) by (f_equal; ring).
  assert (Hq : 0 < 1 / failure) by (apply Rmult_lt_0_compat; [lra|apply Rinv_0_lt_compat; lra]).
  assert (Hl : 0 <= ln (1 / failure)).
  { rewrite <- ln_1. apply ln_le_mono; [lra|]. apply (Rmult_le_reg_r failure); [lra|]. unfold Rdiv. rewrite Rmult_assoc, Rinv_l by lra. lra. }
  cbn [x_log]. rewrite Rltb_true by exact Hq. cbn [xdiv]. rewrite Reqb_false by lra. cbn [xdiv]. rewrite Reqb_false by lra. cbn [x_sqrt].
  rewrite Rltb_false by (apply Rmult_le_pos; [lra|apply Rlt_le, Rinv_0_lt_compat; exact M]).
  cbn [xmul xsub xneg xadd bind]. do 3 f_equal. ring.
Qed.

Lemma renyi_lower E c t W (keras : list (outcome E) -> list (outcome E) -> W -> res ((outcome E -> R) * W)) failure n1 n2 w :
  new_renyi c = Ok t -> 1 < rc_alpha c -> valid E -> absolutely_continuous E -> 0 < failure ->
  mean (law_P E) n1 (fun s1 => mean (law_Q E) n2 (fun s2 =>
    indicator (rejects (fun vw => xltb (Fin (renyi E (rc_alpha c))) (fst vw)) (renyi_estimate keras t s1 s2 failure w)))) <= failure.
Proof.
  intros Hc Ha Hv AC Hf.
  assert (Ht : rt_alpha t = rc_alpha c /\ 0 < rt_bound t).
  { unfold new_renyi in Hc. destruct (match prop_renyi (rc_property c) with Some _ => _ | None => _ end) as [[[e a] r]|] eqn:Em; [|discriminate].
    cbn [bind] in Hc. destruct (validate_training (rc_training c)) as [b|] eqn:Et; [|discriminate]. cbn [bind] in Hc. injection Hc as <-. cbn [rt_alpha rt_bound]. split.
    - destruct (prop_renyi (rc_property c)) as [p|].
      + destruct (validate_renyi p) as [[e' a']|]; [|discriminate]. cbn [bind] in Em. destruct (Reqb_spec (rc_alpha c) a'); [|discriminate]. injection Em as <- <- <-. congruence.
      + destruct (prop_pure (rc_property c)) as [p|]; [|discriminate]. destruct (validate_pure p); [|discriminate]. cbn [bind] in Em. injection Em as <- <- <-. reflexivity.
    - revert Et. unfold validate_training. destruct (not_positive _); [discriminate|]. destruct (not_positive _); [discriminate|]. destruct (not_positive _); [discriminate|].
      destruct (output_bound (rc_training c)) as [x|]; [|discriminate]. destruct (Reqb_spec x 0); cbn [orb]; [discriminate|]. destruct (Rleb_spec x 0); [discriminate|].
      intros K. injection K as <-. lra. }
  destruct Ht as [Ea Hb]. set (t' := mkRenyi (rc_alpha c) (renyi E (rc_alpha c)) (rt_bound t)).
  assert (HP := law_P_ok E Hv). assert (HQ := law_Q_ok E Hv).
  rewrite (mean_ext (law_P E) n1 _ (fun s1 => mean (law_Q E) n2 (fun s2 =>
    indicator (rejects (fun vw => renyi_reject t' (fst vw)) (renyi_estimate keras t' (map (fun o => o) s1) (map (fun o => o) s2) failure w))))).
  2:{ intros s1 _ _. apply mean_ext. intros s2 _ _. rewrite !map_id. unfold renyi_estimate, renyi_compute, divergence_estimate. rewrite Ea. reflexivity. }
  unfold renyi_estimate. apply (trained (law_P E) (law_Q E) (fun o => o) (fun o => o) keras (renyi_compute t') (renyi_reject t') HP HQ); [|lra].
  intros g. apply (renyi_test (law_P E) (law_Q E) (fun o => o) (fun o => o) t' HP HQ Ha Hb); [|exact Hf].
  intros g'. rewrite expect_P, expect_Q. apply (variational E _ _ g' Hv Ha). split; [exact AC|]. split; [cbn; lra|]. cbn. lra.
Qed.

(** The value of the estimate, for enough samples. *)
Lemma renyi_value A t W (keras : list A -> list A -> W -> res ((A -> R) * W)) failure s1 s2 w g w' :
  1 < rt_alpha t -> 0 < rt_bound t -> 0 < failure <= 2 ->
  (2 <= List.length s1)%nat -> (2 <= List.length s2)%nat ->
  keras (firstn (List.length s1 / 2) s1) (firstn (List.length s2 / 2) s2) w = Ok (g, w') ->
  let test1 := skipn (List.length s1 / 2) s1 in let test2 := skipn (List.length s2 / 2) s2 in
  let output a := rt_bound t * tanh (g a) in
  let n := INR (Nat.min (List.length test1) (List.length test2)) in
  let gamma := sqrt (Rmax (3 * exp (2 * (rt_alpha t - 1) * rt_bound t)) (2 * exp (2 * rt_alpha t * rt_bound t)) * ln (2 / failure) / n) in
  gamma < 1 ->
  renyi_estimate keras t s1 s2 failure w
  = Ok (Fin (rt_alpha t / (rt_alpha t - 1) * ln (rsum (fun a => exp ((rt_alpha t - 1) * output a)) test1 / INR (List.length test1))
             - ln (rsum (fun a => exp (rt_alpha t * output a)) test2 / INR (List.length test2))
             - ln ((1 + gamma) / (1 - gamma))), w').
Proof.
  intros Hal HC Hf L1 L2 Hk test1 test2 output n gamma Hg.
  assert (Hh : forall k, (2 <= k)%nat -> (k / 2 < k)%nat) by (intros; apply Nat.div_lt; lia).
  pose proof (Hh _ L1). pose proof (Hh _ L2).
  unfold renyi_estimate, divergence_estimate, split_samples.
  destruct (Nat.eqb_spec (List.length s1) 1) as [K|_]; [lia|]. destruct (Nat.eqb_spec (List.length s2) 1) as [K|_]; [lia|]. cbn [bind].
  rewrite Hk. cbn [bind]. fold test1 test2.
  assert (T1 : (0 < List.length test1)%nat) by (unfold test1; rewrite skipn_length; lia).
  assert (T2 : (0 < List.length test2)%nat) by (unfold test2; rewrite skipn_length; lia).
  assert (N1 : 0 < INR (List.length test1)) by (apply lt_0_INR; exact T1). assert (N2 : 0 < INR (List.length test2)) by (apply lt_0_INR; exact T2).
  assert (N : 0 < n) by (apply lt_0_INR; lia).
  unfold renyi_compute, renyi_call, reduce_mean, scaled_tanh. fold output.
  change (fun a => exp ((rt_alpha t - 1) * (rt_bound t * tanh (g a)))) with (fun a => exp ((rt_alpha t - 1) * output a)).
  change (fun a => exp (rt_alpha t * (rt_bound t * tanh (g a)))) with (fun a => exp (rt_alpha t * output a)).
  set (X1 := rsum _ test1). set (X2 := rsum _ test2).
  assert (P1 : 0 < X1 / INR (List.length test1)).
  { apply Rmult_lt_0_compat; [|apply Rinv_0_lt_compat; exact N1]. unfold X1. destruct test1 as [|o l]; [cbn in T1; lia|]. cbn [rsum].
    assert (0 <= rsum (fun a => exp ((rt_alpha t - 1) * output a)) l) by (apply rsum_nonneg; intros; apply Rlt_le, exp_pos). pose proof (exp_pos ((rt_alpha t - 1) * output o)). lra. }
  assert (P2 : 0 < X2 / INR (List.length test2)).
  { apply Rmult_lt_0_compat; [|apply Rinv_0_lt_compat; exact N2]. unfold X2. destruct test2 as [|o l]; [cbn in T2; lia|]. cbn [rsum].
    assert (0 <= rsum (fun a => exp (rt_alpha t * output a)) l) by (apply rsum_nonneg; intros; apply Rlt_le, exp_pos). pose proof (exp_pos (rt_alpha t * output o)). lra. }
  cbn [xdiv]. rewrite (Reqb_false (INR (List.length test1))), (Reqb_false (INR (List.length test2))) by lra. cbn [x_log].
  rewrite !Rltb_true by assumption. unfold py_div at 1. rewrite Reqb_false by lra. cbn [bind xmul xsub xneg xadd].
  unfold renyi_error, py_div. rewrite Reqb_false by lra. cbn [bind]. fold n.
  assert (Hq : 0 < 2 / failure) by (apply Rmult_lt_0_compat; [lra|apply Rinv_0_lt_compat; lra]).
  assert (Hl : 0 <= ln (2 / failure)).
  { rewrite <- ln_1. apply ln_le_mono; [lra|]. apply (Rmult_le_reg_r failure); [lra|]. unfold Rdiv. rewrite Rmult_assoc, Rinv_l by lra. lra. }
  cbn [x_log]. rewrite Rltb_true by exact Hq. set (l := ln (2 / failure)) in *. cbn [xmul xdiv]. rewrite !(Reqb_false n) by lra. cbn [x_sqrt].
  set (A1 := exp (2 * (rt_alpha t - 1) * rt_bound t)) in *. set (A2 := exp (2 * rt_alpha t * rt_bound t)) in *.
  assert (HA1 : 0 < A1) by apply exp_pos. assert (HA2 : 0 < A2) by apply exp_pos.
  assert (Q1 : 0 <= 3 * l * A1 / n) by (apply Rmult_le_pos; [nra|apply Rlt_le, Rinv_0_lt_compat; exact N]).
  assert (Q2 : 0 <= 2 * l * A2 / n) by (apply Rmult_le_pos; [nra|apply Rlt_le, Rinv_0_lt_compat; exact N]).
  rewrite !Rltb_false by assumption.
  assert (Eg : py_max (Fin (sqrt (3 * l * A1 / n))) (Fin (sqrt (2 * l * A2 / n))) = Fin gamma).
  { assert (In0 : 0 < / n) by (apply Rinv_0_lt_compat; exact N).
    unfold py_max. cbn [xltb]. unfold gamma. destruct (Rltb_spec (sqrt (3 * l * A1 / n)) (sqrt (2 * l * A2 / n))) as [K|K].
    - apply sqrt_lt_0_alt in K. assert (3 * l * A1 < 2 * l * A2) by (apply (Rmult_lt_reg_r (/ n)); [exact In0|exact K]).
      rewrite Rmax_right by nra. do 2 f_equal. unfold Rdiv. ring.
    - do 2 f_equal. destruct (Rle_lt_dec (2 * A2) (3 * A1)) as [B|B]; [rewrite Rmax_left by exact B; unfold Rdiv; ring|].
      rewrite Rmax_right by lra. destruct (Req_dec l 0) as [Z|Z]; [rewrite Z; unfold Rdiv; ring|]. exfalso. apply K. apply sqrt_lt_1_alt. split; [exact Q1|].
      apply Rmult_lt_compat_r; [exact In0|]. assert (0 < l) by lra. nra. }
  rewrite Eg. assert (G0 : 0 <= gamma) by apply sqrt_pos. cbn [xadd xsub xneg xdiv]. rewrite Reqb_false by lra. cbn [x_log].
  rewrite Rltb_true by (apply Rmult_lt_0_compat; [lra|apply Rinv_0_lt_compat; lra]). cbn [xadd xneg bind]. do 3 f_equal.
Qed.

Definition sign_model (data : list (bool * bool)) (w : unit) : res ((bool -> R) * unit) := Ok ((fun b : bool => if b then 1 else - 1), w).
Lemma separated_example : hockey_estimate sign_model quarter (repeat false 64) (repeat true 64) (exp (- (1))) tt
  = Ok (Fin (1 / 2), tt).
Proof.
  assert (Hp : 0 < exp (- (1))) by apply exp_pos.
  assert (H1 : exp (- (1)) <= 1) by (apply Rle_trans with (exp 0); [apply exp_le; lra|rewrite exp_0; lra]).
  rewrite (hockey_separated bool quarter_config quarter unit sign_model (ln 3) (exp (- (1))) 64 (repeat false 64) (repeat true 64) tt
             (fun b => if b then 1 else - 1) tt quarter_ok eq_refl); try reflexivity; try lia.
  - do 3 f_equal. replace (64 - 64 / 2)%nat with 32%nat by reflexivity. rewrite exp_ln by lra.
    replace (1 / exp (- (1))) with (exp 1) by (rewrite exp_Ropp; field; apply Rgt_not_eq, exp_pos). rewrite ln_exp.
    replace (1 / 2 / INR 32) with (1 / 8 * (1 / 8)) by (cbn [INR]; field). rewrite sqrt_square by lra. field.
  - lra.
  - intros a Ha. apply repeat_spec in Ha. subst a. lra.
  - intros a Ha. apply repeat_spec in Ha. subst a. lra.
Qed.
Lemma renyi_value_example :
  let t := mkRenyi 2 1 (1 / 10) in
  let n := INR (Nat.min (List.length (skipn (80 / 2) (repeat true 80))) (List.length (skipn (80 / 2) (repeat false 80)))) in
  sqrt (Rmax (3 * exp (2 * (rt_alpha t - 1) * rt_bound t)) (2 * exp (2 * rt_alpha t * rt_bound t)) * ln (2 / (1 / 10)) / n) < 1.
Proof.
  cbn [rt_alpha rt_bound]. replace (Nat.min _ _) with 40%nat by reflexivity.
  assert (H1 : exp (2 * (2 - 1) * (1 / 10)) <= 2).
  { apply Rle_trans with (exp (ln 2)); [|rewrite exp_ln; lra]. apply exp_le. pose proof (ln_1_plus 1 ltac:(lra)) as K. replace (1 + 1) with 2 in K by ring. lra. }
  assert (H2 : exp (2 * 2 * (1 / 10)) <= 2).
  { apply Rle_trans with (exp (ln 2)); [|rewrite exp_ln; lra]. apply exp_le. pose proof (ln_1_plus 1 ltac:(lra)) as K. replace (1 + 1) with 2 in K by ring. lra. }
  assert (Hl : 0 <= ln (2 / (1 / 10)) <= 5).
  { split; [rewrite <- ln_1; apply ln_le_mono; lra|].
    assert (L2' : ln 2 <= 1).
    { apply (Rle_trans _ (ln (exp 1))); [|rewrite ln_exp; lra]. apply ln_le_mono; [lra|]. pose proof (exp_ineq1_le 1). lra. }
    apply (Rle_trans _ (ln (2 ^ 5))); [apply ln_le_mono; lra|]. rewrite ln_pow by lra. cbn [INR]. lra. }
  set (M := Rmax _ _). assert (HM : 0 <= M <= 6).
  { unfold M. split; [apply Rle_trans with (3 * exp (2 * (2 - 1) * (1 / 10))); [pose proof (exp_pos (2 * (2 - 1) * (1 / 10))); lra|apply Rmax_l]|apply Rmax_lub; lra]. }
  assert (0 <= M * ln (2 / (1 / 10)) <= 6 * 5) by (split; [apply Rmult_le_pos; lra|apply Rmult_le_compat; lra]).
  replace (INR 40) with 40 by (cbn [INR]; ring). apply Rlt_le_trans with (sqrt 1); [apply sqrt_lt_1_alt; lra|rewrite sqrt_1; lra].
Qed.
