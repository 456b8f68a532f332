(** Truncated power series of exp and ln. *)
From Verif Require Import Base XReal Exn TypesEvent TypesRelation ModelMake ModelRdp SpecRdp ProofRdpMath.
Local Arguments Rltb : simpl never.
Local Arguments Rleb : simpl never.
Local Arguments Reqb : simpl never.

(** A function vanishing at 0 whose derivative is bounded along the way. *)
Lemma mvt0 (f f' : R -> R) x M : (forall c, Rabs c <= Rabs x -> derivable_pt_lim f c (f' c)) ->
  (forall c, Rabs c <= Rabs x -> Rabs (f' c) <= M) -> f 0 = 0 -> Rabs (f x) <= M * Rabs x.
Proof.
  intros D B Z. destruct (Rtotal_order x 0) as [L|[->|L]].
  - destruct (MVT_cor2 f f' x 0 L) as (c & E & C).
    + intros c C. apply D. rewrite !Rabs_left1 by lra. lra.
    + rewrite Z in E. replace (f x) with (f' c * x) by lra. rewrite Rabs_mult.
      apply Rmult_le_compat_r; [apply Rabs_pos|]. apply B. rewrite !Rabs_left1 by lra. lra.
  - rewrite Z, !Rabs_R0. lra.
  - destruct (MVT_cor2 f f' 0 x L) as (c & E & C).
    + intros c C. apply D. rewrite !Rabs_pos_eq by lra. lra.
    + rewrite Z in E. replace (f x) with (f' c * x) by lra. rewrite Rabs_mult.
      apply Rmult_le_compat_r; [apply Rabs_pos|]. apply B. rewrite !Rabs_pos_eq by lra. lra.
Qed.

Fixpoint exp_poly (n : nat) (x : R) : R :=
  match n with O => 1 | S n => exp_poly n x + x ^ S n / INR (fact (S n)) end.
Lemma exp_poly_0 n : exp_poly n 0 = 1.
Proof. induction n as [|n IH]; [reflexivity|]. cbn [exp_poly]. rewrite IH, pow_i by lia. unfold Rdiv. ring. Qed.
Lemma exp_poly_deriv n x : derivable_pt_lim (exp_poly (S n)) x (exp_poly n x).
Proof.
  induction n as [|n IH].
  - replace (exp_poly 0 x) with (0 + / INR (fact 1) * 1) by (cbn; field).
    apply derivable_pt_lim_plus; [apply derivable_pt_lim_const|].
    unfold Rdiv. replace (/ INR (fact 1) * 1) with (1 * / INR (fact 1) + x ^ 1 * 0) by ring.
    apply (derivable_pt_lim_mult (fun x => x ^ 1) (fun _ => / INR (fact 1))); [|apply derivable_pt_lim_const].
    replace 1 with (INR 1 * x ^ pred 1) by (cbn; ring). apply derivable_pt_lim_pow.
  - change (exp_poly (S n) x) with (exp_poly n x + x ^ S n / INR (fact (S n))).
    apply (derivable_pt_lim_plus (exp_poly (S n)) (fun x => x ^ S (S n) / INR (fact (S (S n))))); [exact IH|].
    unfold Rdiv.
    replace (x ^ S n * / INR (fact (S n))) with (INR (S (S n)) * x ^ S n * / INR (fact (S (S n))) + x ^ S (S n) * 0).
    + apply (derivable_pt_lim_mult (fun x => x ^ S (S n)) (fun _ => / INR (fact (S (S n))))); [|apply derivable_pt_lim_const].
      apply (derivable_pt_lim_pow x (S (S n))).
    + change (fact (S (S n))) with ((S (S n)) * fact (S n))%nat. rewrite mult_INR. field.
      split; [apply INR_fact_neq_0 | apply not_0_INR; lia].
Qed.

Lemma exp_le3 x : Rabs x <= 1 -> Rabs (exp x) <= 3.
Proof.
  intros H. rewrite Rabs_pos_eq by (left; apply exp_pos). apply Rle_trans with (exp 1); [|apply exp_le_3].
  apply exp_le. pose proof (Rle_abs x). lra.
Qed.

Lemma exp_taylor n : forall x, Rabs x <= 1 -> Rabs (exp x - exp_poly n x) <= 3 * Rabs x ^ S n.
Proof.
  induction n as [|n IH]; intros x Hx.
  - cbn [exp_poly]. rewrite pow_1.
    apply (mvt0 (fun x => exp x - 1) (fun x => exp x - 0)).
    + intros c _. apply derivable_pt_lim_minus; [apply derivable_pt_lim_exp | apply derivable_pt_lim_const].
    + intros c C. rewrite Rminus_0_r. apply exp_le3. lra.
    + rewrite exp_0. ring.
  - change (Rabs x ^ S (S n)) with (Rabs x * Rabs x ^ S n). rewrite (Rmult_comm (Rabs x)), <- Rmult_assoc.
    apply (mvt0 (fun x => exp x - exp_poly (S n) x) (fun x => exp x - exp_poly n x)).
    + intros c _. apply derivable_pt_lim_minus; [apply derivable_pt_lim_exp | apply exp_poly_deriv].
    + intros c C. apply Rle_trans with (3 * Rabs c ^ S n); [apply IH; lra|].
      apply Rmult_le_compat_l; [lra|]. apply pow_incr. split; [apply Rabs_pos | assumption].
    + rewrite exp_0, exp_poly_0. ring.
Qed.

Lemma expm1_terms_sum n : forall k y x, (1 <= k)%nat ->
  y * INR (fact (k - 1)) = x ^ (k - 1) ->
  x * expm1_terms n k y x = exp_poly (k - 1 + n) x - exp_poly (k - 1) x.
Proof.
  induction n as [|n IH]; intros k y x Hk Hy.
  - cbn. rewrite Nat.add_0_r. ring.
  - cbn [expm1_terms]. destruct k as [|k]; [lia|]. replace (S k - 1)%nat with k in * by lia.
    rewrite Rmult_plus_distr_l, (IH (S (S k))).
    + replace (S (S k) - 1)%nat with (S k) by lia. replace (k + S n)%nat with (S k + n)%nat by lia.
      cbn [exp_poly]. change (x ^ S k) with (x * x ^ k). rewrite <- Hy.
      change (fact (S k)) with (S k * fact k)%nat. rewrite mult_INR. field.
      split; [apply INR_fact_neq_0 | apply not_0_INR; lia].
    + lia.
    + replace (S (S k) - 1)%nat with (S k) by lia. change (x ^ S k) with (x * x ^ k). rewrite <- Hy.
      change (fact (S k)) with (S k * fact k)%nat. rewrite mult_INR. field. apply not_0_INR; lia.
Qed.

(** [_expm1_over_x] is accurate to 90 digits. *)
Lemma expm1_accurate x : x <> 0 -> Rabs (expm1_over_x x - (exp x - 1) / x) <= 1 / 10 ^ 90.
Proof.
  intros N. unfold expm1_over_x.
  destruct (Rltb_spec x (-1/10)) as [|L]; [cbn [orb]; rewrite Rminus_eq_0, Rabs_R0; left; apply Rdiv_lt_0_compat; [lra | apply pow_lt; lra]|].
  destruct (Rltb_spec (1/10) x) as [|U]; cbn [orb]; [rewrite Rminus_eq_0, Rabs_R0; left; apply Rdiv_lt_0_compat; [lra | apply pow_lt; lra]|].
  assert (A : Rabs x <= / 10) by (apply Rabs_le; lra).
  assert (P : 0 < Rabs x) by (apply Rabs_pos_lt; assumption).
  assert (S : x * expm1_terms 99 1 1 x = exp_poly 99 x - 1).
  { rewrite (expm1_terms_sum 99 1 1 x (le_n 1)); [reflexivity | cbn; ring]. }
  assert (H : Rabs x * Rabs (expm1_terms 99 1 1 x - (exp x - 1) / x) <= Rabs x * (3 * Rabs x ^ 99)).
  { rewrite <- Rabs_mult, Rmult_minus_distr_l, S.
    replace (exp_poly 99 x - 1 - x * ((exp x - 1) / x)) with (- (exp x - exp_poly 99 x)) by (field; assumption).
    rewrite Rabs_Ropp. apply Rle_trans with (3 * Rabs x ^ 100); [apply (exp_taylor 99); lra|].
    change 100%nat with (1 + 99)%nat. rewrite pow_add. cbn [pow]. lra. }
  apply Rmult_le_reg_l in H; [|assumption]. eapply Rle_trans; [exact H|].
  apply Rle_trans with (3 * (/ 10) ^ 99).
  - apply Rmult_le_compat_l; [lra|]. apply pow_incr. split; [apply Rabs_pos | assumption].
  - change 99%nat with (9 + 90)%nat. rewrite pow_add, !pow_inv by lra. unfold Rdiv.
    assert (0 < / 10 ^ 90) by (apply Rinv_0_lt_compat, pow_lt; lra).
    assert (3 * / 10 ^ 9 <= 1); [|nra]. lra.
Qed.

(** ** The logarithm *)
Definition log_series (n : nat) (u : R) : R := rsum (fun k => u ^ (k - 1) / INR k) (seq 1 n).

Lemma log_series_S n u : log_series (S n) u = log_series n u + u ^ n / INR (S n).
Proof.
  unfold log_series. rewrite seq_S, rsum_app. cbn [rsum]. replace (1 + n - 1)%nat with n by lia.
  replace (1 + n)%nat with (S n) by lia. ring.
Qed.

Lemma log_series_deriv n u : u < 1 ->
  derivable_pt_lim (fun u => - ln (1 - u) - u * log_series n u) u (u ^ n / (1 - u)).
Proof.
  intros Hu. induction n as [|n IH].
  - replace (u ^ 0 / (1 - u)) with (- (/ (1 - u) * (0 - 1)) - 0) by (cbn; field; lra).
    apply (derivable_pt_lim_minus (fun u => - ln (1 - u)) (fun u => u * log_series 0 u)).
    + apply (derivable_pt_lim_opp (fun u => ln (1 - u))).
      apply (derivable_pt_lim_comp (fun u => 1 - u) ln).
      * apply derivable_pt_lim_minus; [apply derivable_pt_lim_const | apply derivable_pt_lim_id].
      * apply derivable_pt_lim_ln. lra.
    + apply (derivable_pt_lim_ext (fun _ => 0)); [intros z; unfold log_series; cbn; ring | apply derivable_pt_lim_const].
  - replace (u ^ S n / (1 - u)) with (u ^ n / (1 - u) - (INR (S n) * u ^ n * / INR (S n) + u ^ S n * 0)).
    + eapply derivable_pt_lim_ext; [|apply (derivable_pt_lim_minus _ (fun u => u ^ S n * / INR (S n)) u _ _ IH)].
      * intros z. unfold minus_fct. rewrite log_series_S. cbn [pow]. unfold Rdiv. ring.
      * apply (derivable_pt_lim_mult (fun x => x ^ S n) (fun _ => / INR (S n))); [|apply derivable_pt_lim_const].
        apply (derivable_pt_lim_pow u (S n)).
    + cbn [pow]. field. split; [lra | apply not_0_INR; lia].
Qed.

Lemma log_series_0 n : - ln (1 - 0) - 0 * log_series n 0 = 0.
Proof. rewrite Rminus_0_r, ln_1. ring. Qed.

Lemma log_taylor n u : Rabs u <= 1/10 -> Rabs (- ln (1 - u) - u * log_series n u) <= Rabs u ^ n * (10/9) * Rabs u.
Proof.
  intros Hu. apply (mvt0 (fun u => - ln (1 - u) - u * log_series n u) (fun u => u ^ n / (1 - u))).
  - intros c C. apply log_series_deriv. pose proof (Rle_abs c). lra.
  - intros c C. pose proof (Rle_abs c). unfold Rdiv. rewrite Rabs_mult.
    apply Rmult_le_compat; try apply Rabs_pos.
    + rewrite <- RPow_abs. apply pow_incr. split; [apply Rabs_pos | assumption].
    + rewrite Rabs_pos_eq by (left; apply Rinv_0_lt_compat; lra).
      replace (10 * / 9) with (/ (9/10)) by lra. apply Rinv_le_contravar; lra.
  - apply log_series_0.
Qed.

(** For arguments in [0, 1) the truncation is from below. *)
Lemma log_series_le n u : 0 <= u < 1 -> u * log_series n u <= - ln (1 - u).
Proof.
  intros [[Hu|<-] Hu1]; [|pose proof (log_series_0 n); lra].
  destruct (MVT_cor2 (fun u => - ln (1 - u) - u * log_series n u) (fun u => u ^ n / (1 - u)) 0 u Hu) as (c & E & C).
  - intros c C. apply log_series_deriv. lra.
  - rewrite log_series_0, !Rminus_0_r in E.
    assert (0 <= c ^ n / (1 - c)) by (apply Rmult_le_pos; [apply pow_le; lra | left; apply Rinv_0_lt_compat; lra]).
    assert (0 <= c ^ n / (1 - c) * u) by (apply Rmult_le_pos; lra). lra.
Qed.

(** [_logx_over_xm1] is accurate to 90 digits. *)
Lemma logx_accurate x : 0 < x -> x <> 1 -> Rabs (logx_over_xm1 x - ln x / (x - 1)) <= 1 / 10 ^ 90.
Proof.
  intros P N. unfold logx_over_xm1.
  destruct (Rltb_spec x (9/10)) as [|L]; [cbn [orb]; rewrite Rminus_eq_0, Rabs_R0; left; apply Rdiv_lt_0_compat; [lra | apply pow_lt; lra]|].
  destruct (Rltb_spec (11/10) x) as [|U]; cbn [orb]; [rewrite Rminus_eq_0, Rabs_R0; left; apply Rdiv_lt_0_compat; [lra | apply pow_lt; lra]|].
  fold (log_series 99 (1 - x)). set (u := 1 - x). assert (A : Rabs u <= / 10) by (apply Rabs_le; unfold u; lra).
  assert (Pu : 0 < Rabs u) by (apply Rabs_pos_lt; unfold u; lra).
  replace (ln x / (x - 1)) with (- ln (1 - u) / u) by (unfold u; replace (1 - (1 - x)) with x by ring; field; lra).
  assert (H : Rabs u * Rabs (log_series 99 u - - ln (1 - u) / u) <= Rabs u * (Rabs u ^ 99 * (10/9))).
  { rewrite <- Rabs_mult. replace (u * (log_series 99 u - - ln (1 - u) / u)) with (- (- ln (1 - u) - u * log_series 99 u)).
    - rewrite Rabs_Ropp, (Rmult_comm (Rabs u)). apply log_taylor. lra.
    - field. intros Z. rewrite Z, Rabs_R0 in Pu. lra. }
  apply Rmult_le_reg_l in H; [|assumption]. eapply Rle_trans; [exact H|].
  apply Rle_trans with ((/ 10) ^ 99 * (10/9)).
  - apply Rmult_le_compat_r; [lra|]. apply pow_incr. split; [apply Rabs_pos | assumption].
  - change 99%nat with (9 + 90)%nat. rewrite pow_add, !pow_inv by lra. unfold Rdiv.
    assert (0 < / 10 ^ 90) by (apply Rinv_0_lt_compat, pow_lt; lra).
    assert (/ 10 ^ 9 * (10 * / 9) <= 1); [|nra]. lra.
Qed.
