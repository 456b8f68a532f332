(** How likely the Renyi tester is to reject a mechanism that satisfies the guarantee. *)
From Verif Require Import Base Exn XReal TypesAudit SpecDP SpecAudit SpecRenyi ModelAudit TypesTesters ModelTesters SpecTesters ProofHoeffding ProofTailBounds ProofTailSums ProofTrained ProofRenyi ProofVariational.
Local Arguments Rltb : simpl never.
Local Arguments Rleb : simpl never.
Local Arguments Reqb : simpl never.

Lemma tanh_range x : - 1 <= tanh x <= 1.
Proof.
  unfold tanh, sinh, cosh. pose proof (exp_pos x). pose proof (exp_pos (- x)).
  assert (E : (exp x - exp (- x)) / 2 / ((exp x + exp (- x)) / 2) * ((exp x + exp (- x)) / 2) = (exp x - exp (- x)) / 2) by (field; lra).
  split; apply (Rmult_le_reg_r ((exp x + exp (- x)) / 2)); try lra; rewrite E; lra.
Qed.
Lemma tanh_scaled c x : 0 <= c -> - c <= scaled_tanh c x <= c.
Proof. intros Hc. unfold scaled_tanh. pose proof (tanh_range x). nra. Qed.

(** * Inequalities *)
Lemma sinh_chord k z : 0 <= k <= 1 -> 0 <= z -> exp (k * z) - exp (- (k * z)) <= k * (exp z - exp (- z)).
Proof.
  intros Hk Hz.
  assert (H : k * (exp 0 - exp (- 0)) - (exp (k * 0) - exp (- (k * 0))) <= k * (exp z - exp (- z)) - (exp (k * z) - exp (- (k * z)))).
  { apply (grows (fun z => k * (exp z - exp (- z)) - (exp (k * z) - exp (- (k * z))))
      (fun z => k * ((exp z + exp (- z)) - (exp (k * z) + exp (- (k * z)))))); [exact Hz| |].
    - intros c _. 
      assert (D1 : derivable_pt_lim exp c (exp c)) by apply derivable_pt_lim_exp.
      assert (Dn : forall b, derivable_pt_lim (fun z => exp (b * z)) c (b * exp (b * c))).
      { intros b. apply (deriv_eq _ _ (exp (b * c) * (b * 1))); [ring|].
        apply (derivable_pt_lim_comp (fun z => b * z) exp c); [|apply derivable_pt_lim_exp].
        apply derivable_pt_lim_scal. apply derivable_pt_lim_id. }
      assert (F : forall z, k * (exp z - exp (- z)) - (exp (k * z) - exp (- (k * z))) = k * (exp (1 * z) - exp (- 1 * z)) - (exp (k * z) - exp (- k * z))).
      { intros u. replace (1 * u) with u by ring. replace (- 1 * u) with (- u) by ring. replace (- k * u) with (- (k * u)) by ring. reflexivity. }
      assert (D : derivable_pt_lim (fun z => k * (exp (1 * z) - exp (- 1 * z)) - (exp (k * z) - exp (- k * z))) c
                    (k * (1 * exp (1 * c) - - 1 * exp (- 1 * c)) - (k * exp (k * c) - - k * exp (- k * c)))).
      { apply (derivable_pt_lim_minus (fun z => k * (exp (1 * z) - exp (- 1 * z))) (fun z => exp (k * z) - exp (- k * z)) c).
        - apply (derivable_pt_lim_scal (fun z => exp (1 * z) - exp (- 1 * z)) k c).
          apply (derivable_pt_lim_minus (fun z => exp (1 * z)) (fun z => exp (- 1 * z)) c); apply Dn.
        - apply (derivable_pt_lim_minus (fun z => exp (k * z)) (fun z => exp (- k * z)) c); apply Dn. }
      intros e Hpe. destruct (D e Hpe) as (d & Hd). exists d. intros h Hh Hhd. specialize (Hd h Hh Hhd). rewrite !F.
      replace (k * (exp c + exp (- c) - (exp (k * c) + exp (- (k * c))))) with (k * (1 * exp (1 * c) - - 1 * exp (- 1 * c)) - (k * exp (k * c) - - k * exp (- k * c))).
      + exact Hd.
      + replace (1 * c) with c by ring. replace (- 1 * c) with (- c) by ring. replace (- k * c) with (- (k * c)) by ring. ring.
    - intros c Hc. apply Rmult_le_pos; [lra|].
      (* cosh is increasing *)
      assert (Hu : k * c <= c) by nra. assert (H0 : 0 <= k * c) by nra. set (u := k * c) in *.
      assert (E1 : exp u <= exp c) by (apply exp_le; lra). assert (E0 : 1 <= exp u) by (rewrite <- exp_0; apply exp_le; lra).
      rewrite !exp_Ropp. set (x := exp c) in *. set (y := exp u) in *.
      replace (x + / x - (y + / y)) with ((x - y) * (1 - / x * / y)) by (field; lra).
      apply Rmult_le_pos; [lra|]. assert (/ x * / y <= 1 * 1); [|lra].
      apply Rmult_le_compat; try (apply Rlt_le, Rinv_0_lt_compat; lra); rewrite <- Rinv_1; apply Rinv_le_contravar; lra. }
  rewrite Rmult_0_r, Ropp_0, exp_0 in H. lra.
Qed.
Lemma ln_1_plus y : 0 <= y <= 1 -> 2 * y / 3 <= ln (1 + y).
Proof.
  intros Hy. assert (E : exp (2 * y / 3) <= 1 + y); [|rewrite <- (ln_exp (2 * y / 3)); apply ln_le_mono; [apply exp_pos|exact E]].
  destruct (Req_dec y 0) as [->|N]; [rewrite Rmult_0_r; unfold Rdiv; rewrite Rmult_0_l, exp_0; lra|].
  pose proof (exp_upper3 (2 * y / 3) ltac:(lra)) as U. set (x := 2 * y / 3) in *. assert (Hx : 0 < x <= 2 / 3) by (unfold x; lra).
  apply (Rmult_le_reg_r (2 - 2 * x / 3)); [lra|]. replace y with (3 * x / 2) by (unfold x; field). nra.
Qed.

(** The spread of a positive variable. *)
Lemma spread mu lo hi : 0 < lo -> lo <= mu <= hi -> lo * hi = 1 ->
  (hi - mu) * (mu - lo) <= mu * mu * ((hi - lo) / 2 * ((hi - lo) / 2)).
Proof. intros Hlo Hmu Hp. pose proof (Rle_0_sqr (1 - mu * ((hi + lo) / 2))) as S. unfold Rsqr in S. nra. Qed.

Section Tester.
  Context {O1 O2 A : Type} (om1 : list (O1 * R)) (om2 : list (O2 * R)) (m1 : O1 -> A) (m2 : O2 -> A) (t : renyi_tester).
  Hypothesis H1 : distribution om1.
  Hypothesis H2 : distribution om2.
  Local Notation al := (rt_alpha t).
  Local Notation C := (rt_bound t).
  Hypothesis Hal : 1 < al.
  Hypothesis HC : 0 < C.
  Hypothesis Hdv : forall g : A -> R,
    al / (al - 1) * ln (expect om1 (fun o => exp ((al - 1) * g (m1 o)))) - ln (expect om2 (fun o => exp (al * g (m2 o)))) <= rt_threshold t.
  Variables (failure : R) (n1 n2 : nat) (base : A -> R).
  Hypothesis Hf : 0 < failure.
  Local Notation n := (Nat.min n1 n2).
  Let nn (a : A) : R := scaled_tanh C (base a).
  Let X1 (o : O1) : R := exp ((al - 1) * nn (m1 o)).
  Let X2 (o : O2) : R := exp (al * nn (m2 o)).
  Let mu1 := expect om1 X1.
  Let mu2 := expect om2 X2.
  Let l := ln (2 / failure).
  Definition error_1 : R := sqrt (3 * l * exp (2 * (al - 1) * C) / INR n).
  Definition error_2 : R := sqrt (2 * l * exp (2 * al * C) / INR n).
  Definition gamma : R := Rmax error_1 error_2.

  Lemma X1_range o : exp (- ((al - 1) * C)) <= X1 o <= exp ((al - 1) * C).
  Proof. unfold X1. pose proof (tanh_scaled C (base (m1 o)) ltac:(lra)) as T. fold (nn (m1 o)) in T. split; apply exp_le; nra. Qed.
  Lemma X2_range o : exp (- (al * C)) <= X2 o <= exp (al * C).
  Proof. unfold X2. pose proof (tanh_scaled C (base (m2 o)) ltac:(lra)) as T. fold (nn (m2 o)) in T. split; apply exp_le; nra. Qed.
  Lemma mu1_range : exp (- ((al - 1) * C)) <= mu1 <= exp ((al - 1) * C).
  Proof. apply (expect_bounds om1 H1). intros. apply X1_range. Qed.
  Lemma mu2_range : exp (- (al * C)) <= mu2 <= exp (al * C).
  Proof. apply (expect_bounds om2 H2). intros. apply X2_range. Qed.

  (** When the tester rejects, one of the two averages is off. *)
  Lemma renyi_rejects s1 s2 : List.length s1 = n1 -> List.length s2 = n2 ->
    rejects (renyi_reject t) (renyi_compute t base (map m1 s1) (map m2 s2) failure) = true ->
    (0 < n)%nat /\ failure <= 2 /\ gamma < 1 /\
    (mu1 * (1 + (al - 1) / al * ln (1 + gamma)) < rsum X1 s1 / INR n1 \/ rsum X2 s2 / INR n2 < mu2 - gamma * mu2).
  Proof.
    intros L1 L2. unfold renyi_compute, renyi_call, reduce_mean. rewrite !rsum_map, !map_length, L1, L2.
    change (rsum (fun b => exp ((al - 1) * scaled_tanh C (base (m1 b)))) s1) with (rsum X1 s1).
    change (rsum (fun b => exp (al * scaled_tanh C (base (m2 b)))) s2) with (rsum X2 s2).
    unfold py_div at 1. rewrite Reqb_false by lra. cbn [bind].
    assert (D0 : xdiv (Fin 0) (Fin 0) = NaN) by (cbn [xdiv]; rewrite Reqb_true by reflexivity; rewrite Rltb_false by lra; reflexivity).
    assert (Hnan : forall x, xsub x NaN = NaN) by (intros []; reflexivity).
    destruct (Nat.eq_dec n1 0) as [Z1|Z1].
    { assert (E0 : s1 = []) by (destruct s1; [reflexivity|cbn in L1; lia]). rewrite E0, Z1. cbn [rsum INR]. rewrite D0.
      destruct (renyi_error _ _ _ _); cbn [bind rejects]; unfold renyi_reject, exceeds; cbn; discriminate. }
    destruct (Nat.eq_dec n2 0) as [Z2|Z2].
    { assert (E0 : s2 = []) by (destruct s2; [reflexivity|cbn in L2; lia]). rewrite E0, Z2. cbn [rsum INR]. rewrite D0. cbn [x_log]. rewrite Hnan.
      destruct (renyi_error _ _ _ _) as [e|]; cbn [bind rejects]; [|discriminate]. unfold renyi_reject, exceeds. cbn. discriminate. }
    assert (N1 : 0 < INR n1) by (apply lt_0_INR; lia). assert (N2 : 0 < INR n2) by (apply lt_0_INR; lia).
    assert (Hn : (0 < n)%nat) by lia. assert (N : 0 < INR n) by (apply lt_0_INR; exact Hn).
    cbn [xdiv]. rewrite (Reqb_false (INR n1)), (Reqb_false (INR n2)) by lra.
    assert (P1 : 0 < rsum X1 s1 / INR n1).
    { apply Rmult_lt_0_compat; [|apply Rinv_0_lt_compat; exact N1]. destruct s1 as [|o s1]; [cbn in L1; lia|]. cbn [rsum].
      assert (0 <= rsum X1 s1) by (apply rsum_nonneg; intros; apply Rlt_le, exp_pos). assert (0 < X1 o) by apply exp_pos. lra. }
    assert (P2 : 0 < rsum X2 s2 / INR n2).
    { apply Rmult_lt_0_compat; [|apply Rinv_0_lt_compat; exact N2]. destruct s2 as [|o s2]; [cbn in L2; lia|]. cbn [rsum].
      assert (0 <= rsum X2 s2) by (apply rsum_nonneg; intros; apply Rlt_le, exp_pos). assert (0 < X2 o) by apply exp_pos. lra. }
    set (T1 := rsum X1 s1 / INR n1) in *. set (T2 := rsum X2 s2 / INR n2) in *.
    cbn [x_log]. rewrite !Rltb_true by assumption. cbn [xmul xsub xneg xadd].
    unfold renyi_error, py_div. rewrite Reqb_false by lra. cbn [bind].
    assert (Hq : 0 < 2 / failure) by (apply Rmult_lt_0_compat; [lra|apply Rinv_0_lt_compat; lra]).
    cbn [x_log]. rewrite Rltb_true by exact Hq. fold l. cbn [xmul xdiv]. rewrite !(Reqb_false (INR n)) by lra. cbn [x_sqrt].
    assert (Ee1 := exp_pos (2 * (al - 1) * C)). assert (Ee2 := exp_pos (2 * al * C)).
    destruct (Rle_lt_dec failure 2) as [Hf2|Hf2].
    - assert (Hl : 0 <= l).
      { unfold l. rewrite <- ln_1. apply ln_le_mono; [lra|]. apply (Rmult_le_reg_r failure); [lra|]. unfold Rdiv. rewrite Rmult_assoc, Rinv_l by lra. lra. }
      assert (Q1 : 0 <= 3 * l * exp (2 * (al - 1) * C) / INR n) by (apply Rmult_le_pos; [nra|apply Rlt_le, Rinv_0_lt_compat; exact N]).
      assert (Q2 : 0 <= 2 * l * exp (2 * al * C) / INR n) by (apply Rmult_le_pos; [nra|apply Rlt_le, Rinv_0_lt_compat; exact N]).
      rewrite !Rltb_false by assumption. fold error_1 error_2.
      assert (Hg : py_max (Fin error_1) (Fin error_2) = Fin gamma).
      { unfold py_max, gamma. cbn [xltb]. destruct (Rltb_spec error_1 error_2); [rewrite Rmax_right by lra|rewrite Rmax_left by lra]; reflexivity. }
      rewrite Hg. assert (G0 : 0 <= gamma) by (apply Rle_trans with error_1; [apply sqrt_pos|apply Rmax_l]).
      cbn [xadd xsub xneg xdiv]. destruct (Reqb_spec (1 + - gamma) 0) as [Z|Z].
      { rewrite Rltb_true by lra. cbn [x_log bind rejects xsub xneg xadd]. unfold renyi_reject, exceeds. cbn. discriminate. }
      cbn [x_log]. destruct (Rltb_spec 0 ((1 + gamma) / (1 + - gamma))) as [K|K].
      2:{ destruct (Reqb_spec ((1 + gamma) / (1 + - gamma)) 0) as [Y|Y]; cbn [bind rejects xsub xneg xadd].
          - exfalso. assert (1 + gamma = 0) by (replace (1 + gamma) with ((1 + gamma) / (1 + - gamma) * (1 + - gamma)) by (field; lra); rewrite Y; ring). lra.
          - unfold renyi_reject, exceeds. cbn. discriminate. }
      assert (Hg1 : gamma < 1).
      { destruct (Rle_lt_dec 1 gamma) as [B|B]; [|exact B]. exfalso.
        assert ((1 + gamma) / (1 + - gamma) * (1 + - gamma) = 1 + gamma) by (field; lra).
        assert (1 + - gamma < 0) by lra. nra. }
      cbn [bind rejects xsub xneg xadd]. unfold renyi_reject, exceeds. cbn [xltb]. intros Hr.
      match type of Hr with Rltb ?x ?y = true => destruct (Rltb_spec x y) as [W|]; [|discriminate] end.
      split; [exact Hn|]. split; [exact Hf2|]. split; [exact Hg1|].
      pose proof (Hdv nn) as D. change (fun o => exp ((al - 1) * nn (m1 o))) with X1 in D. change (fun o => exp (al * nn (m2 o))) with X2 in D. fold mu1 mu2 in D.
      rewrite ln_div in W by lra.
      pose proof mu1_range as M1. pose proof mu2_range as M2.
      assert (Pm1 : 0 < mu1) by (pose proof (exp_pos (- ((al - 1) * C))); lra). assert (Pm2 : 0 < mu2) by (pose proof (exp_pos (- (al * C))); lra).
      set (k := al / (al - 1)) in *. assert (Hk : 0 < k) by (unfold k; apply Rmult_lt_0_compat; [lra|apply Rinv_0_lt_compat; lra]).
      assert (Hki : (al - 1) / al = / k) by (unfold k; field; lra). rewrite Hki.
      destruct (Rle_lt_dec (mu2 - gamma * mu2) T2) as [B2|B2]; [left|right; exact B2].
      assert (L2' : ln mu2 + ln (1 + - gamma) <= ln T2).
      { rewrite <- ln_mult by lra. apply ln_le_mono; [nra|]. lra. }
      assert (W' : k * ln mu1 + ln (1 + gamma) < k * ln T1) by lra.
      assert (Hlt : ln mu1 + / k * ln (1 + gamma) < ln T1).
      { apply (Rmult_lt_reg_l k); [exact Hk|]. replace (k * (ln mu1 + / k * ln (1 + gamma))) with (k * ln mu1 + ln (1 + gamma)) by (field; lra). exact W'. }
      apply exp_increasing in Hlt. rewrite exp_plus, !exp_ln in Hlt by assumption.
      eapply Rle_lt_trans; [|exact Hlt]. apply Rmult_le_compat_l; [lra|]. apply exp_ineq1_le.
    - assert (Hl : l < 0).
      { unfold l. rewrite <- ln_1. apply ln_increasing; [exact Hq|]. apply (Rmult_lt_reg_r failure); [lra|]. unfold Rdiv. rewrite Rmult_assoc, Rinv_l by lra. lra. }
      rewrite !Rltb_true.
      + cbn. discriminate.
      + apply (Rmult_lt_reg_r (INR n)); [exact N|]. unfold Rdiv. rewrite Rmult_assoc, Rinv_l by lra. nra.
      + apply (Rmult_lt_reg_r (INR n)); [exact N|]. unfold Rdiv. rewrite Rmult_assoc, Rinv_l by lra. nra.
  Qed.

  Lemma gamma_nonneg : 0 <= gamma.
  Proof. apply Rle_trans with error_1; [apply sqrt_pos|apply Rmax_l]. Qed.
  Lemma gamma_square : (0 < n)%nat -> 0 <= l -> 2 * (l / INR n) * exp (2 * (al * C)) <= gamma * gamma.
  Proof.
    intros Hn Hl. assert (N : 0 < INR n) by (apply lt_0_INR; exact Hn). pose proof (exp_pos (2 * al * C)).
    assert (E2 : error_2 * error_2 = 2 * (l / INR n) * exp (2 * (al * C))).
    { unfold error_2. rewrite sqrt_sqrt; [replace (2 * (al * C)) with (2 * al * C) by ring; field; lra|].
      apply Rmult_le_pos; [nra|apply Rlt_le, Rinv_0_lt_compat; exact N]. }
    rewrite <- E2. assert (0 <= error_2) by apply sqrt_pos. assert (error_2 <= gamma) by apply Rmax_r. nra.
  Qed.
  Lemma exp_minus_l : exp (- l) = failure / 2.
  Proof.
    assert (Hq : 0 < 2 / failure) by (apply Rmult_lt_0_compat; [lra|apply Rinv_0_lt_compat; lra]).
    rewrite exp_Ropp. unfold l. rewrite exp_ln by exact Hq. field. lra.
  Qed.
  Lemma large_l n' : (0 < n)%nat -> (n <= n')%nat -> 0 <= l -> l <= INR n' * (l / INR n).
  Proof.
    intros Hn Hle Hl. assert (N : 0 < INR n) by (apply lt_0_INR; exact Hn). apply le_INR in Hle.
    apply (Rmult_le_reg_r (INR n)); [exact N|]. replace (INR n' * (l / INR n) * INR n) with (INR n' * l) by (field; lra). nra.
  Qed.

  Lemma tail_2 : (0 < n)%nat -> failure <= 2 ->
    mean om2 n2 (fun s2 => indicator (Rltb (rsum X2 s2 / INR n2) (mu2 - gamma * mu2))) <= failure / 2.
  Proof.
    intros Hn Hf2. assert (Hl : 0 <= l).
    { unfold l. rewrite <- ln_1. apply ln_le_mono; [lra|]. apply (Rmult_le_reg_r failure); [lra|]. unfold Rdiv. rewrite Rmult_assoc, Rinv_l by lra. lra. }
    pose proof mu2_range as M2. pose proof (exp_pos (- (al * C))) as Pe. pose proof (exp_pos (al * C)) as Pb.
    assert (Pm : 0 < mu2) by lra. pose proof gamma_nonneg as G0.
    rewrite <- exp_minus_l. eapply Rle_trans; [apply (lower_tail om2 H2 X2 (exp (al * C)) (gamma * mu2) n2)|].
    - intros o _. pose proof (X2_range (fst o)). lra.
    - nra.
    - lia.
    - fold mu2. apply Rmult_lt_0_compat; assumption.
    - fold mu2. apply exp_le, Ropp_le_contravar. eapply Rle_trans; [apply (large_l n2 Hn ltac:(lia) Hl)|].
      apply Rmult_le_compat_l; [apply pos_INR|]. pose proof (gamma_square Hn Hl) as G.
      apply (Rmult_le_reg_r (2 * (exp (al * C) * mu2))); [nra|].
      replace (gamma * mu2 * (gamma * mu2) / (2 * (exp (al * C) * mu2)) * (2 * (exp (al * C) * mu2))) with (gamma * gamma * (mu2 * mu2)) by (field; lra).
      apply Rle_trans with (2 * (l / INR n) * exp (2 * (al * C)) * (mu2 * mu2)); [|apply Rmult_le_compat_r; [nra|exact G]].
      replace (exp (2 * (al * C))) with (exp (al * C) * exp (al * C)) by (rewrite <- exp_plus; f_equal; ring).
      assert (One : 1 <= exp (al * C) * mu2).
      { replace 1 with (exp (al * C) * exp (- (al * C))) by (rewrite <- exp_plus; replace (al * C + - (al * C)) with 0 by ring; apply exp_0).
        apply Rmult_le_compat_l; lra. }
      assert (0 <= l / INR n) by (apply Rmult_le_pos; [exact Hl|apply Rlt_le, Rinv_0_lt_compat, lt_0_INR; exact Hn]).
      assert (0 <= l / INR n * (2 * (exp (al * C) * mu2)) * (exp (al * C) * mu2 - 1)); [|nra].
      apply Rmult_le_pos; [apply Rmult_le_pos; nra|lra].
  Qed.

  Lemma tail_1 : (0 < n)%nat -> failure <= 2 -> gamma < 1 ->
    mean om1 n1 (fun s1 => indicator (Rltb (mu1 * (1 + (al - 1) / al * ln (1 + gamma))) (rsum X1 s1 / INR n1))) <= failure / 2.
  Proof.
    intros Hn Hf2 Hg. assert (Hl : 0 <= l).
    { unfold l. rewrite <- ln_1. apply ln_le_mono; [lra|]. apply (Rmult_le_reg_r failure); [lra|]. unfold Rdiv. rewrite Rmult_assoc, Rinv_l by lra. lra. }
    pose proof mu1_range as M1. set (k := (al - 1) / al). set (z := al * C).
    assert (Hz : 0 < z) by (unfold z; apply Rmult_lt_0_compat; lra).
    assert (Hk : 0 < k < 1).
    { unfold k. split; [apply Rmult_lt_0_compat; [lra|apply Rinv_0_lt_compat; lra]|].
      apply (Rmult_lt_reg_r al); [lra|]. unfold Rdiv. rewrite Rmult_assoc, Rinv_l by lra. lra. }
    assert (Ec : (al - 1) * C = k * z) by (unfold k, z; field; lra). rewrite Ec in M1.
    set (hi := exp (k * z)) in *. set (lo := exp (- (k * z))) in *.
    assert (Hlo : 0 < lo) by apply exp_pos. assert (Hp : lo * hi = 1) by (unfold lo, hi; rewrite <- exp_plus; replace (- (k * z) + k * z) with 0 by ring; apply exp_0).
    assert (R1 : forall o, lo <= X1 o <= hi) by (intros o; pose proof (X1_range o) as R; rewrite Ec in R; exact R).
    pose proof gamma_nonneg as G0. set (x := l / INR n).
    assert (Hx : 0 <= x) by (apply Rmult_le_pos; [exact Hl|apply Rlt_le, Rinv_0_lt_compat, lt_0_INR; exact Hn]).
    pose proof (gamma_square Hn Hl) as G. fold x in G. fold z in G.
    assert (N1 : 0 < INR n1) by (apply lt_0_INR; lia).
    apply Rle_trans with (exp (- (INR n1 * x))).
    2:{ rewrite <- exp_minus_l. apply exp_le, Ropp_le_contravar. apply (large_l n1 Hn); [lia|exact Hl]. }
    eapply Rle_trans; [|apply (bernstein_tail om1 H1 X1 (hi - mu1) (INR n1 * x) n1)].
    - apply (mean_le om1 H1). intros s1 L1. fold mu1.
      replace (INR n1 * x / INR n1) with x by (field; lra).
      destruct (Rltb_spec (mu1 * (1 + k * ln (1 + gamma))) (rsum X1 s1 / INR n1)) as [K|K]; cbn [indicator]; [|destruct (Rltb _ _); cbn [indicator]; lra].
      rewrite Rltb_true; [cbn [indicator]; lra|]. eapply Rle_lt_trans; [|exact K].
      pose proof (ln_1_plus gamma ltac:(lra)) as LN.
      assert (Sq : sqrt (2 * var om1 X1 * x) <= mu1 * (k * gamma / 2)).
      { apply Rle_trans with (sqrt (mu1 * (k * gamma / 2) * (mu1 * (k * gamma / 2)))).
        2:{ rewrite sqrt_square; [lra|]. apply Rmult_le_pos; [lra|nra]. }
        apply sqrt_le_1_alt. pose proof (var_range om1 H1 X1 lo hi (fun o _ => R1 (fst o))) as V. fold mu1 in V.
        pose proof (spread mu1 lo hi Hlo M1 Hp) as Sp. set (d := (hi - lo) / 2) in *.
        assert (Hd : 0 <= d) by (unfold d; lra).
        assert (Hdk : d <= k * (exp z / 2)).
        { pose proof (sinh_chord k z ltac:(lra) ltac:(lra)) as Sc. fold hi lo in Sc. pose proof (exp_pos (- z)). unfold d. nra. }
        apply Rle_trans with (2 * (mu1 * mu1 * (d * d)) * x); [apply Rmult_le_compat_r; [exact Hx|lra]|].
        assert (Hd2 : d * d <= k * (exp z / 2) * (k * (exp z / 2))) by (apply Rmult_le_compat; assumption).
        replace (exp (2 * z)) with (exp z * exp z) in G by (rewrite <- exp_plus; f_equal; ring).
        apply Rle_trans with (mu1 * mu1 * (2 * x * (k * (exp z / 2) * (k * (exp z / 2))))).
        - replace (2 * (mu1 * mu1 * (d * d)) * x) with (mu1 * mu1 * (2 * x * (d * d))) by ring.
          apply Rmult_le_compat_l; [nra|]. apply Rmult_le_compat_l; lra.
        - replace (mu1 * (k * gamma / 2) * (mu1 * (k * gamma / 2))) with (mu1 * mu1 * (k * k / 4 * (gamma * gamma))) by field.
          apply Rmult_le_compat_l; [nra|]. replace (2 * x * (k * (exp z / 2) * (k * (exp z / 2)))) with (k * k / 4 * (2 * x * (exp z * exp z))) by field.
          apply Rmult_le_compat_l; [nra|exact G]. }
      assert (Bt : (hi - mu1) * x / 3 <= mu1 * (k * (gamma * gamma) / 6)).
      { assert (B1 : hi - mu1 <= mu1 * (hi * hi - 1)).
        { assert (hi <= mu1 * (hi * hi)); [|lra]. replace hi with (lo * (hi * hi)) at 1 by (rewrite <- Rmult_assoc, Hp; ring).
          apply Rmult_le_compat_r; [nra|lra]. }
        assert (B2 : hi * hi - 1 <= k * exp (2 * z)).
        { pose proof (exp_convex k (2 * z) 0 ltac:(lra)) as Cv. rewrite exp_0 in Cv.
          replace (k * (2 * z) + (1 - k) * 0) with (k * z + k * z) in Cv by ring. rewrite exp_plus in Cv. fold hi in Cv. lra. }
        assert (B3 : (hi - mu1) * x <= mu1 * (k * exp (2 * z)) * x).
        { apply Rmult_le_compat_r; [exact Hx|]. eapply Rle_trans; [exact B1|]. apply Rmult_le_compat_l; lra. }
        assert (B4 : mu1 * k * (2 * x * exp (2 * z)) <= mu1 * k * (gamma * gamma)) by (apply Rmult_le_compat_l; [nra|exact G]).
        nra. }
      assert (Lk : k * (2 * gamma / 3) <= k * ln (1 + gamma)) by (apply Rmult_le_compat_l; lra).
      assert (mu1 * (k * gamma / 2) + mu1 * (k * (gamma * gamma) / 6) <= mu1 * (k * (2 * gamma / 3))).
      { rewrite <- Rmult_plus_distr_l. apply Rmult_le_compat_l; [lra|]. assert (k * (gamma * gamma) <= k * gamma) by (apply Rmult_le_compat_l; nra). lra. }
      assert (mu1 * (k * (2 * gamma / 3)) <= mu1 * (k * ln (1 + gamma))) by (apply Rmult_le_compat_l; lra). lra.
    - intros o _. fold mu1. pose proof (R1 (fst o)). lra.
    - lra.
    - apply Rmult_le_pos; [lra|exact Hx].
    - lia.
  Qed.

  Lemma renyi_test : mean om1 n1 (fun s1 => mean om2 n2 (fun s2 =>
      indicator (rejects (renyi_reject t) (renyi_compute t base (map m1 s1) (map m2 s2) failure)))) <= failure.
  Proof.
    destruct (Nat.eq_dec n 0) as [Z|Z]; [|destruct (Rle_lt_dec failure 2) as [Hf2|Hf2]; [destruct (Rlt_le_dec gamma 1) as [Hg|Hg]|]].
    2:{ assert (Hn : (0 < n)%nat) by lia.
        apply Rle_trans with (mean om1 n1 (fun s1 => mean om2 n2 (fun s2 =>
          indicator (Rltb (mu1 * (1 + (al - 1) / al * ln (1 + gamma))) (rsum X1 s1 / INR n1)) + indicator (Rltb (rsum X2 s2 / INR n2) (mu2 - gamma * mu2))))).
        - apply (mean_le om1 H1). intros s1 L1. apply (mean_le om2 H2). intros s2 L2.
          destruct (rejects _ _) eqn:Er; cbn [indicator].
          + apply renyi_rejects in Er; [|exact L1|exact L2]. destruct Er as (_ & _ & _ & [K|K]); rewrite (Rltb_true _ _ K); cbn [indicator];
              destruct (Rltb _ _); cbn [indicator]; lra.
          + destruct (Rltb _ _), (Rltb _ _); cbn [indicator]; lra.
        - rewrite (mean_ext om1 n1 _ (fun s1 => indicator (Rltb (mu1 * (1 + (al - 1) / al * ln (1 + gamma))) (rsum X1 s1 / INR n1))
                     + mean om2 n2 (fun s2 => indicator (Rltb (rsum X2 s2 / INR n2) (mu2 - gamma * mu2))))).
          + rewrite mean_plus, (mean_const om1 H1). pose proof (tail_1 Hn Hf2 Hg). pose proof (tail_2 Hn Hf2). lra.
          + intros s1 _ _. rewrite mean_plus, (mean_const om2 H2). reflexivity. }
    all: apply Rle_trans with (mean om1 n1 (fun s1 => mean om2 n2 (fun _ => failure)));
      [|rewrite (mean_ext om1 n1 _ (fun _ => failure)) by (intros; apply (mean_const om2 H2)); rewrite (mean_const om1 H1); lra];
      apply (mean_le om1 H1); intros s1 L1; apply (mean_le om2 H2); intros s2 L2;
      destruct (rejects _ _) eqn:Er; cbn [indicator]; [|lra];
      (apply renyi_rejects in Er; [|exact L1|exact L2]); destruct Er as (K1 & K2 & K3 & _); exfalso; lia || lra.
  Qed.
End Tester.

(** * The constructor *)
Lemma new_renyi_inv c t E : new_renyi c = Ok t -> 1 < rc_alpha c -> valid E -> satisfies (rc_property c) E ->
  1 < rt_alpha t /\ 0 < rt_bound t /\ renyi_bounded E (Fin (rt_alpha t)) (Fin (rt_threshold t)).
Proof.
  unfold new_renyi. intros Hc Ha V (SP & SR & _).
  assert (Eps : forall o e, validate_epsilon o = Ok e -> o = Some e /\ 0 < e).
  { intros o e. unfold validate_epsilon. destruct o as [x|]; [|discriminate]. destruct (Reqb_spec x 0); [discriminate|]. destruct (Rleb_spec x 0); [discriminate|].
    intros K. injection K as <-. split; [reflexivity|lra]. }
  assert (Trn : forall c b, validate_training c = Ok b -> 0 < b).
  { intros c0 b. unfold validate_training. destruct (not_positive _); [discriminate|]. destruct (not_positive _); [discriminate|]. destruct (not_positive _); [discriminate|].
    destruct (output_bound c0) as [x|]; [|discriminate]. destruct (Reqb_spec x 0); cbn [orb]; [discriminate|]. destruct (Rleb_spec x 0); [discriminate|].
    intros K. injection K as <-. lra. }
  destruct (prop_renyi (rc_property c)) as [r|].
  - unfold validate_renyi in Hc. destruct (validate_epsilon (r_epsilon r)) as [e'|] eqn:Ev; cbn [bind] in Hc; [|discriminate].
    apply Eps in Ev. destruct Ev as [Ee He]. destruct (r_alpha r) as [a|] eqn:Ea; [|discriminate].
    destruct (SR r a e' eq_refl Ea Ee) as [Hb _].
    destruct (Reqb_spec a 0); [discriminate|]. destruct (Rleb_spec a 1); [discriminate|]. cbn [bind] in Hc.
    destruct (Reqb_spec (rc_alpha c) a); [|discriminate]. cbn [bind] in Hc.
    destruct (validate_training (rc_training c)) as [b|] eqn:Et; cbn [bind] in Hc; [|discriminate]. injection Hc as <-.
    cbn [rt_alpha rt_bound rt_threshold]. split; [lra|]. split; [apply (Trn _ _ Et)|exact Hb].
  - destruct (prop_pure (rc_property c)) as [p|]; [|discriminate]. unfold validate_pure in Hc.
    destruct (validate_epsilon (p_epsilon p)) as [e'|] eqn:Ev; cbn [bind] in Hc; [|discriminate].
    apply Eps in Ev. destruct Ev as [Ee He]. destruct (SP p e' eq_refl Ee) as [D1 D2].
    destruct (validate_training (rc_training c)) as [b|] eqn:Et; cbn [bind] in Hc; [|discriminate]. injection Hc as <-.
    cbn [rt_alpha rt_bound rt_threshold]. split; [exact Ha|]. split; [apply (Trn _ _ Et)|]. apply (pure_renyi E e' (rc_alpha c) V He Ha D1 D2).
Qed.

Lemma renyi_sound E c t W (keras : list (outcome E) -> list (outcome E) -> W -> res ((outcome E -> R) * W)) failure n1 n2 w :
  new_renyi c = Ok t -> 1 < rc_alpha c -> valid E -> satisfies (rc_property c) E -> 0 < failure ->
  mean (law_P E) n1 (fun s1 => mean (law_Q E) n2 (fun s2 =>
    indicator (rejects (fun vw => renyi_reject t (fst vw)) (renyi_estimate keras t s1 s2 failure w)))) <= failure.
Proof.
  intros Hc Ha Hv Hg Hf. destruct (new_renyi_inv c t E Hc Ha Hv Hg) as (Ha' & Hb & HR).
  assert (HP := law_P_ok E Hv). assert (HQ := law_Q_ok E Hv).
  rewrite (mean_ext (law_P E) n1 _ (fun s1 => mean (law_Q E) n2 (fun s2 =>
    indicator (rejects (fun vw => renyi_reject t (fst vw)) (renyi_estimate keras t (map (fun o => o) s1) (map (fun o => o) s2) failure w))))).
  2:{ intros s1 _ _. apply mean_ext. intros s2 _ _. rewrite !map_id. reflexivity. }
  unfold renyi_estimate. apply (trained (law_P E) (law_Q E) (fun o => o) (fun o => o) keras (renyi_compute t) (renyi_reject t) HP HQ); [|lra].
  intros g. apply (renyi_test (law_P E) (law_Q E) (fun o => o) (fun o => o) t HP HQ Ha' Hb); [|exact Hf].
  intros g'. rewrite expect_P, expect_Q. apply (variational E _ _ g' Hv Ha' HR).
Qed.
