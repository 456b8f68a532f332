(** Examples for the testers that train a model, and an order that is not validated. *)
From Verif Require Import Base Exn XReal TypesAudit SpecDP SpecAudit SpecRenyi ModelAudit TypesTesters ModelTesters SpecTesters ProofHoeffding ProofTailBounds ProofTailSums ProofTrained ProofVariational ProofHockey ProofHockeyBad ProofRenyiTester ProofTesterRun.
Local Arguments Rltb : simpl never.
Local Arguments Rleb : simpl never.
Local Arguments Reqb : simpl never.

(** Randomised response: the truth with probability 3/4. *)
Definition rr : exper := {| outcome := bool; outs := [true; false]; prP := fun b => if b then 3 / 4 else 1 / 4; prQ := fun b => if b then 1 / 4 else 3 / 4 |}.
Lemma rr_valid : valid rr.
Proof. split; [intros [] _; cbn; lra|split; cbn; lra]. Qed.
Lemma rr_dp : dp rr (ln 3) 0.
Proof. intros S. unfold ProbP, ProbQ. rewrite exp_ln by lra. cbn [outs rr filter]. destruct (S true), (S false); cbn [rsum prP prQ rr]; lra. Qed.
Lemma rr_dp' : dp (swap rr) (ln 3) 0.
Proof. intros S. unfold ProbP, ProbQ. rewrite exp_ln by lra. cbn [outs swap rr filter]. destruct (S true), (S false); cbn [rsum prP prQ swap rr]; lra. Qed.

(** "Training" that counts: the output is positive on the values that are more frequent among the
    examples with label 1. *)
Definition counting (data : list (bool * bool)) (w : nat) : res ((bool -> R) * nat) :=
  Ok (fun b => rsum (fun d : bool * bool => if Bool.eqb (fst d) b then if snd d then 1 else - 3 else 0) data, S w).

Lemma hockey_example :
  mean (law_P rr) (2 * (4 * 25)) (fun s1 => mean (law_Q rr) (2 * (4 * 25)) (fun s2 =>
    indicator (rejects (fun vw => hockey_reject quarter (fst vw)) (hockey_estimate (A := outcome rr) counting quarter s1 s2 (1 / 20) 0%nat)))) <= 1 / 20.
Proof.
  apply (hockey_sound_exact rr quarter_config quarter nat counting (ln 3) 0 (1 / 20) (2 * (4 * 25)) 25 0%nat); try reflexivity.
  - apply quarter_ok.
  - apply rr_valid.
  - apply rr_dp.
  - lra.
  - rewrite exp_ln by lra. replace (2 * (4 * 25) - 2 * (4 * 25) / 2)%nat with (4 * 25)%nat by reflexivity. rewrite mult_INR. cbn [INR]. ring.
Qed.

Definition renyi_property : privacy_property := mkProperty (Some (mkPure (Some (ln 3)))) None None.
Definition pure_config (alpha bound eps : R) : renyi_config :=
  mkRenyiConfig alpha (mkTraining (Some 1%Z) (Some 1%Z) (Some 1) (Some bound)) (mkProperty (Some (mkPure (Some eps))) None None).
Lemma pure_config_ok alpha bound eps : 0 < bound -> 0 < eps ->
  new_renyi (pure_config alpha bound eps) = Ok (mkRenyi alpha (Rmin eps (2 * alpha * (eps * eps))) bound).
Proof.
  intros Hb He. unfold new_renyi, pure_config, validate_pure, validate_epsilon, validate_training, not_positive.
  cbn [rc_property prop_renyi prop_pure p_epsilon rc_alpha rc_training learning_rate training_epochs batch_size output_bound option_map].
  rewrite !Reqb_false, !Rleb_false by lra. cbn [orb bind]. reflexivity.
Qed.
Lemma pure_satisfies E alpha bound eps : dp E eps 0 -> dp (swap E) eps 0 -> satisfies (rc_property (pure_config alpha bound eps)) E.
Proof.
  intros H1 H2. split; [|split]; cbn [rc_property pure_config prop_pure prop_renyi prop_approximate]; try discriminate.
  intros q e Hq He. injection Hq as <-. cbn [p_epsilon] in He. injection He as <-. split; assumption.
Qed.
(** A "training" that returns the difference of the frequencies. *)
Definition freq_model (s1 s2 : list bool) (w : nat) : res ((bool -> R) * nat) :=
  Ok (fun b => rsum (fun x : bool => if Bool.eqb x b then 1 else 0) s1 - rsum (fun x : bool => if Bool.eqb x b then 1 else 0) s2, S w).
Lemma renyi_example n1 n2 :
  mean (law_P rr) n1 (fun s1 => mean (law_Q rr) n2 (fun s2 =>
    indicator (rejects (fun vw => renyi_reject (mkRenyi 2 (Rmin (ln 3) (2 * 2 * (ln 3 * ln 3))) 1) (fst vw))
      (renyi_estimate (A := outcome rr) freq_model (mkRenyi 2 (Rmin (ln 3) (2 * 2 * (ln 3 * ln 3))) 1) s1 s2 (1 / 20) 0%nat)))) <= 1 / 20.
Proof.
  apply (renyi_sound rr (pure_config 2 1 (ln 3))).
  - apply pure_config_ok; [lra|apply ln3_pos].
  - cbn. lra.
  - apply rr_valid.
  - apply pure_satisfies; [apply rr_dp|apply rr_dp'].
  - lra.
Qed.

(** * An order below one *)
Definition zero_model (s1 s2 : list (outcome blind)) (w : unit) : res ((outcome blind -> R) * unit) := Ok (fun _ => 0, w).
Definition negative : renyi_tester := mkRenyi (- 1) (- 2) 10.
Lemma negative_ok : new_renyi (pure_config (- 1) 10 1) = Ok negative.
Proof. rewrite pure_config_ok by lra. unfold negative. do 2 f_equal. unfold Rmin. destruct (Rle_dec _ _); lra. Qed.
Lemma negative_estimate s1 s2 : List.length s1 = 2%nat -> List.length s2 = 2%nat ->
  rejects (fun vw => renyi_reject negative (fst vw)) (renyi_estimate zero_model negative s1 s2 (1 / 2) tt) = true.
Proof.
  intros L1 L2. destruct s1 as [|a1 [|b1 [|]]]; try discriminate. destruct s2 as [|a2 [|b2 [|]]]; try discriminate.
  unfold renyi_estimate, divergence_estimate, split_samples. cbn [List.length Nat.eqb Nat.div Nat.divmod fst firstn skipn bind].
  unfold zero_model. cbn [bind]. unfold renyi_compute, renyi_call, reduce_mean. cbn [negative rt_alpha rt_bound List.length Nat.min rsum INR bind].
  unfold scaled_tanh. assert (T0 : tanh 0 = 0) by (unfold tanh, sinh, cosh; rewrite Ropp_0; field; pose proof (exp_pos 0); lra).
  rewrite T0. replace (exp ((- 1 - 1) * (10 * 0)) + 0) with 1 by (replace ((- 1 - 1) * (10 * 0)) with 0 by ring; rewrite exp_0; ring).
  replace (exp (- 1 * (10 * 0)) + 0) with 1 by (replace (- 1 * (10 * 0)) with 0 by ring; rewrite exp_0; ring).
  unfold py_div at 1. rewrite Reqb_false by lra. cbn [bind xdiv]. rewrite Reqb_false by lra. cbn [x_log].
  rewrite Rltb_true by lra. replace (1 / 1) with 1 by field. rewrite ln_1. cbn [xmul xsub xneg xadd].
  unfold renyi_error, py_div. rewrite Reqb_false by lra. cbn [bind]. replace (2 / (1 / 2)) with 4 by field.
  cbn [x_log]. rewrite Rltb_true by lra. cbn [xmul xdiv INR]. rewrite Reqb_false by lra. cbn [x_sqrt].
  assert (Hl : 0 <= ln 4 <= 2).
  { split; [rewrite <- ln_1; apply ln_le_mono; lra|]. replace 4 with (2 * 2) by ring. rewrite ln_mult by lra.
    assert (ln 2 <= 1); [|lra]. rewrite <- (ln_exp 1). apply ln_le_mono; [lra|]. pose proof (exp_ineq1_le 1). lra. }
  replace (2 * (- 1 - 1) * 10) with (- (40)) by ring. replace (2 * - 1 * 10) with (- (20)) by ring.
  assert (E40 : 0 < exp (- (40)) <= / 41).
  { split; [apply exp_pos|]. rewrite exp_Ropp. apply Rinv_le_contravar; [lra|]. pose proof (exp_ineq1_le 40). lra. }
  assert (E20 : 0 < exp (- (20)) <= / 21).
  { split; [apply exp_pos|]. rewrite exp_Ropp. apply Rinv_le_contravar; [lra|]. pose proof (exp_ineq1_le 20). lra. }
  replace (3 * ln 4 * exp (- (40)) / 1) with (3 * ln 4 * exp (- (40))) by field. replace (2 * ln 4 * exp (- (20)) / 1) with (2 * ln 4 * exp (- (20))) by field.
  assert (Q1 : 0 <= ln 4 * exp (- (40)) <= 2 * / 41) by (split; [apply Rmult_le_pos; lra|apply Rmult_le_compat; lra]).
  assert (Q2 : 0 <= ln 4 * exp (- (20)) <= 2 * / 21) by (split; [apply Rmult_le_pos; lra|apply Rmult_le_compat; lra]).
  rewrite !Rltb_false by lra.
  assert (S14 : sqrt (1 / 4) = 1 / 2) by (replace (1 / 4) with (1 / 2 * (1 / 2)) by field; apply sqrt_square; lra).
  assert (B1 : 0 <= sqrt (3 * ln 4 * exp (- (40))) <= 1 / 2) by (split; [apply sqrt_pos|rewrite <- S14; apply sqrt_le_1_alt; lra]).
  assert (B2 : 0 <= sqrt (2 * ln 4 * exp (- (20))) <= 1 / 2) by (split; [apply sqrt_pos|rewrite <- S14; apply sqrt_le_1_alt; lra]).
  assert (Hg : exists g, py_max (Fin (sqrt (3 * ln 4 * exp (- (40))))) (Fin (sqrt (2 * ln 4 * exp (- (20))))) = Fin g /\ 0 <= g <= 1 / 2).
  { unfold py_max. cbn [xltb]. destruct (Rltb _ _); eexists; split; try reflexivity; assumption. }
  destruct Hg as (g & -> & Hg). cbn [xadd xsub xneg xdiv]. rewrite Reqb_false by lra. cbn [x_log].
  assert (Hq : 0 < (1 + g) / (1 + - g) <= 3).
  { split; [apply Rmult_lt_0_compat; [lra|apply Rinv_0_lt_compat; lra]|]. apply (Rmult_le_reg_r (1 + - g)); [lra|].
    unfold Rdiv. rewrite Rmult_assoc, Rinv_l by lra. lra. }
  rewrite Rltb_true by lra. cbn [xadd xneg bind rejects fst]. unfold renyi_reject, exceeds. cbn [xltb negative rt_threshold]. apply Rltb_true.
  assert (ln ((1 + g) / (1 + - g)) < 2); [|lra]. rewrite <- (ln_exp 2). apply ln_increasing; [lra|].
  replace 2 with (1 + 1) by ring. rewrite exp_plus. pose proof (exp_ineq1_le 1). nra.
Qed.
Lemma negative_certain :
  mean (law_P blind) 2 (fun s1 => mean (law_Q blind) 2 (fun s2 =>
    indicator (rejects (fun vw => renyi_reject negative (fst vw)) (renyi_estimate zero_model negative s1 s2 (1 / 2) tt)))) = 1.
Proof. apply certain; [apply (law_P_ok _ blind_valid)|apply (law_Q_ok _ blind_valid)|]. apply negative_estimate. Qed.

(** * Audits *)
Definition flip : list (bool * R) := [(true, 3/4); (false, 1/4)].
Definition respond (d o : bool) : bool := if o then d else negb d.
Definition opposite (last : option xr) (g : nat) : bool * bool * nat := (Nat.even g, negb (Nat.even g), S g).
Lemma flip_ok : distribution flip.
Proof. split; [|cbn [flip rsum snd]; lra]. intros o [ <- |[ <- |[]]]; cbn [snd]; lra. Qed.
Lemma respond_dp d d' : dp_pair flip (respond d) (respond d') (ln 3) 0.
Proof.
  intros S. rewrite exp_ln by lra. cbn [flip rsum fst snd respond]. destruct d, d'; cbn [negb]; destruct (S true), (S false); lra.
Qed.
Lemma respond_satisfies d alpha bound : pair_satisfies flip (rc_property (pure_config alpha bound (ln 3))) (respond d) (respond (negb d)).
Proof.
  destruct d; cbn [negb].
  - exists (outs rr), (prP rr), (prQ rr). split; [exact rr_valid|]. split; [|apply pure_satisfies; [exact rr_dp|exact rr_dp']].
    intros f. cbn [rr outs prP prQ outcome flip rsum fst snd respond negb]. split; ring.
  - exists (outs rr), (prQ rr), (prP rr). split; [exact (valid_swap rr rr_valid)|]. split; [|apply pure_satisfies; [exact rr_dp'|exact rr_dp]].
    intros f. cbn [rr outs prP prQ outcome flip rsum fst snd respond negb]. split; ring.
Qed.
Lemma hockey_audit_example :
  mean flip (Z.to_nat 5 * (200 + 200)) (fun tape =>
    indicator (reports_violation
      (test_privacy (tape_generator opposite) (tape_mechanism respond) (tape_tester (hockey_estimate counting quarter))
         (hockey_reject quarter) (fun a b => xltb b a) (fun s => Ok s) (fun s => Ok s) (mkRunner 5 (1/1000) 200 NONE) (0%nat, tape))))
  <= 5 * (2 * (1/1000) * exp (4 * sqrt (ln (1 / (1/1000)) / 2 / INR (200 - 200 / 2)))).
Proof.
  apply (hockey_audit flip respond opposite counting (fun s => Ok s) (fun s => Ok s) (fun a => a) quarter_config quarter (ln 3) 0
           (mkRunner 5 (1/1000) 200 NONE) 0%nat quarter_ok eq_refl eq_refl flip_ok).
  - left. split; [reflexivity|intros; reflexivity].
  - intros last g. cbn. split; apply respond_dp.
  - cbn. lra.
Qed.
Lemma renyi_audit_example :
  let t := mkRenyi 2 (Rmin (ln 3) (2 * 2 * (ln 3 * ln 3))) 1 in
  mean flip (Z.to_nat 5 * (200 + 200)) (fun tape =>
    indicator (reports_violation
      (test_privacy (tape_generator opposite) (tape_mechanism respond) (tape_tester (renyi_estimate freq_model t))
         (renyi_reject t) (fun a b => xltb b a) (fun s => Ok s) (fun s => Ok s) (mkRunner 5 (1/1000) 200 NONE) (0%nat, tape))))
  <= 5 * (2 * (1/1000)).
Proof.
  apply (renyi_audit flip respond opposite freq_model (fun s => Ok s) (fun s => Ok s) (fun a => a) (pure_config 2 1 (ln 3)) _
           (mkRunner 5 (1/1000) 200 NONE) 0%nat).
  - apply pure_config_ok; [lra|apply ln3_pos].
  - cbn. lra.
  - exact flip_ok.
  - left. split; [reflexivity|intros; reflexivity].
  - intros last g. cbn [opposite]. apply respond_satisfies.
  - cbn. lra.
Qed.

(** * Refutations *)
Lemma hockey_refuted :
  ~ (forall E c t W (keras : list (outcome E * bool) -> W -> res ((outcome E -> R) * W)) eps delta failure n w,
      new_hockey c = Ok t -> a_epsilon (hc_approximate c) = Some eps -> a_delta (hc_approximate c) = Some delta ->
      valid E -> dp E eps delta -> 0 < failure < 1 ->
      mean (law_P E) n (fun s1 => mean (law_Q E) n (fun s2 =>
        indicator (rejects (fun vw => hockey_reject t (fst vw)) (hockey_estimate keras t s1 s2 failure w)))) <= failure).
Proof.
  intros H. pose proof (H blind quarter_config quarter unit (constant 1) (ln 3) 0 (95 / 100) 2%nat tt quarter_ok eq_refl eq_refl blind_valid) as K.
  rewrite rounding_certain in K. pose proof ln3_pos. assert (1 <= 95 / 100) by (apply K; [apply blind_dp; lra|lra]). lra.
Qed.
Lemma unequal_refuted :
  exists E c t W (keras : list (outcome E * bool) -> W -> res ((outcome E -> R) * W)) w n1 n2,
    new_hockey c = Ok t /\ valid E /\ (forall o, prP E o = prQ E o) /\
    mean (law_P E) n1 (fun s1 => mean (law_Q E) n2 (fun s2 =>
      indicator (rejects (fun vw => hockey_reject t (fst vw)) (hockey_estimate keras t s1 s2 (5 / 100) w)))) = 1.
Proof.
  exists blind, quarter_config, quarter, unit, (constant 0), tt, (2 * Z.to_nat 4000)%nat, (2 * Z.to_nat 100)%nat.
  split; [exact quarter_ok|]. split; [exact blind_valid|]. split; [reflexivity|exact unequal_certain].
Qed.
Lemma alpha_refuted :
  ~ (forall E c t W (keras : list (outcome E) -> list (outcome E) -> W -> res ((outcome E -> R) * W)) failure n1 n2 w,
      new_renyi c = Ok t -> valid E -> satisfies (rc_property c) E -> 0 < failure < 1 ->
      mean (law_P E) n1 (fun s1 => mean (law_Q E) n2 (fun s2 =>
        indicator (rejects (fun vw => renyi_reject t (fst vw)) (renyi_estimate keras t s1 s2 failure w)))) <= failure).
Proof.
  intros H. pose proof (H blind (pure_config (- 1) 10 1) negative unit zero_model (1 / 2) 2%nat 2%nat tt negative_ok blind_valid) as K.
  rewrite negative_certain in K. assert (1 <= 1 / 2); [|lra]. apply K; [|lra].
  apply pure_satisfies; apply blind_dp; lra.
Qed.
