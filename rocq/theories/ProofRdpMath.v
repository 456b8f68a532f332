(** Log-space arithmetic, binomial sums. *)
From Coq Require Import Binomial.
From Verif Require Import Base XReal Exn TypesEvent TypesRelation ModelMake ModelRdp.

(** ** Log-space helpers *)
Lemma lltb_exp x y : lltb x y = true <-> lexp x < lexp y.
Proof.
  destruct x as [a|], y as [b|]; cbn.
  - destruct (Rltb_spec a b); split; intros H; try discriminate; auto.
    + apply exp_increasing; assumption.
    + exfalso. apply exp_lt_inv in H. lra.
  - split; [discriminate|]. pose proof (exp_pos a). lra.
  - split; [intros _; apply exp_pos | auto].
  - split; [discriminate | lra].
Qed.

Lemma lexp_nonneg x : 0 <= lexp x.
Proof. destruct x; cbn; [apply Rlt_le, exp_pos | lra]. Qed.

Lemma lexp_inj x y : lexp x = lexp y -> x = y.
Proof.
  destruct x as [a|], y as [b|]; cbn; intros H; auto.
  - apply exp_inv in H. congruence.
  - pose proof (exp_pos a). lra.
  - pose proof (exp_pos b). lra.
Qed.

Lemma log_add_exp x y : lexp (log_add x y) = lexp x + lexp y.
Proof.
  unfold log_add, lmin, lmax.
  assert (K : forall a b, exp (ln (1 + exp (a - b)) + b) = exp a + exp b).
  { intros a b. rewrite exp_plus, exp_ln by (pose proof (exp_pos (a - b)); lra).
    rewrite exp_minus. pose proof (exp_pos b). field. lra. }
  destruct x as [a|], y as [b|]; cbn [lltb].
  - destruct (Rltb_spec b a), (Rltb_spec a b); cbn [lexp]; rewrite ?K; try lra.
    assert (a = b) by lra. subst. reflexivity.
  - cbn. lra.
  - cbn. lra.
  - cbn. lra.
Qed.

Lemma log_add_comm x y : log_add x y = log_add y x.
Proof. apply lexp_inj. rewrite !log_add_exp. lra. Qed.

Lemma log_sub_sign_exp x y :
  (if fst (log_sub_sign x y) then 1 else -1) * lexp (snd (log_sub_sign x y)) = lexp x - lexp y.
Proof.
  assert (K : forall a b, a < b -> exp (b + ln (1 + - exp (a - b))) = exp b - exp a).
  { intros a b H. rewrite exp_plus, exp_ln.
    - rewrite exp_minus. pose proof (exp_pos b). field. lra.
    - assert (exp (a - b) < exp 0) by (apply exp_increasing; lra). rewrite exp_0 in H0. lra. }
  unfold log_sub_sign. destruct x as [a|], y as [b|]; cbn [lltb].
  - destruct (Rltb_spec b a); [cbn; rewrite K by assumption; lra|].
    destruct (Rltb_spec a b); cbn; [rewrite K by assumption; lra|].
    assert (a = b) by lra. subst. lra.
  - cbn. lra.
  - cbn. lra.
  - cbn. lra.
Qed.

Lemma log_sub_sign_sign x y : fst (log_sub_sign x y) = negb (lltb x y).
Proof.
  unfold log_sub_sign. destruct x as [a|], y as [b|]; cbn [lltb]; try reflexivity.
  destruct (Rltb_spec b a), (Rltb_spec a b); try lra; reflexivity.
Qed.

Lemma fold_log_add {A} (f : A -> logp) l acc :
  lexp (fold_left (fun x i => log_add x (f i)) l acc) = lexp acc + rsum (fun i => lexp (f i)) l.
Proof.
  revert acc; induction l as [|a l IH]; intros acc; cbn [fold_left rsum]; [lra|].
  rewrite IH, log_add_exp. lra.
Qed.

Lemma fold_log_add_some {A} (f : A -> logp) l acc :
  0 < lexp (fold_left (fun x i => log_add x (f i)) l acc) ->
  fold_left (fun x i => log_add x (f i)) l acc =
  Some (ln (lexp acc + rsum (fun i => lexp (f i)) l)).
Proof.
  intros H. rewrite <- fold_log_add. destruct (fold_left _ l acc) as [v|] eqn:E; cbn in *; [|lra].
  rewrite ln_exp. reflexivity.
Qed.

(** ** Binomial sums *)
Lemma lnfact_exp n : exp (lnfact n) = INR (fact n).
Proof. unfold lnfact. apply exp_ln, INR_fact_lt_0. Qed.

Lemma log_comb_exp n k : exp (log_comb n k) = C n k.
Proof.
  unfold log_comb, C. rewrite !exp_minus, !lnfact_exp. field.
  split; apply INR_fact_neq_0.
Qed.

(** expectation of [c] under the binomial distribution, by its first trial *)
Fixpoint binom (n : nat) (q : R) (c : nat -> R) : R :=
  match n with
  | O => c O
  | S n => (1 - q) * binom n q c + q * binom n q (fun i => c (S i))
  end.

Lemma rsum_seq_S f a n : rsum f (seq a (S n)) = f a + rsum (fun i => f (S i)) (seq a n).
Proof.
  cbn [seq rsum]. f_equal. rewrite <- seq_shift, rsum_map. reflexivity.
Qed.
Lemma rsum_seq_last f a n : rsum f (seq a (S n)) = rsum f (seq a n) + f (a + n)%nat.
Proof. rewrite seq_S, rsum_app. cbn. lra. Qed.

Definition bterm (n : nat) (q : R) (c : nat -> R) (i : nat) : R :=
  C n i * q ^ i * (1 - q) ^ (n - i) * c i.

Lemma C_0 n : C n 0 = 1.
Proof. unfold C. rewrite Nat.sub_0_r. cbn [fact INR]. field. apply INR_fact_neq_0. Qed.
Lemma C_n n : C n n = 1.
Proof. unfold C. rewrite Nat.sub_diag. cbn [fact INR]. field. apply INR_fact_neq_0. Qed.

Lemma binom_sum n q c : rsum (bterm n q c) (seq 0 (S n)) = binom n q c.
Proof.
  revert c; induction n as [|n IH]; intros c.
  - cbn [seq rsum binom]. unfold bterm. rewrite C_0. cbn. lra.
  - cbn [binom]. rewrite <- !IH.
    rewrite (rsum_seq_S (bterm (S n) q c)), (rsum_seq_S (bterm n q c)).
    rewrite (rsum_seq_last (fun i => bterm (S n) q c (S i))).
    rewrite (rsum_seq_last (bterm n q (fun i => c (S i)))).
    cbn [Nat.add].
    assert (E : rsum (fun i => bterm (S n) q c (S i)) (seq 0 n) =
                (1 - q) * rsum (fun i => bterm n q c (S i)) (seq 0 n) +
                q * rsum (bterm n q (fun i => c (S i))) (seq 0 n)).
    { rewrite <- !rsum_scal, <- rsum_plus. apply rsum_ext. intros i Hi.
      apply in_seq in Hi. unfold bterm. rewrite <- (pascal n i) by lia.
      replace (S n - S i)%nat with (S (n - S i)) by lia.
      replace (n - i)%nat with (S (n - S i)) by lia. cbn [pow]. ring. }
    rewrite E. unfold bterm. rewrite !C_0, !C_n, !Nat.sub_0_r, !Nat.sub_diag.
    cbn [pow]. ring.
Qed.

Lemma binom_ext n q c c' : (forall i, (i <= n)%nat -> c i = c' i) -> binom n q c = binom n q c'.
Proof.
  revert c c'; induction n as [|n IH]; intros c c' H; cbn [binom]; [apply H; lia|].
  rewrite (IH c c') by (intros; apply H; lia).
  rewrite (IH (fun i => c (S i)) (fun i => c' (S i))) by (intros; apply H; lia). reflexivity.
Qed.

Lemma binom_le n q c c' : 0 <= q <= 1 -> (forall i, (i <= n)%nat -> c i <= c' i) ->
  binom n q c <= binom n q c'.
Proof.
  intros Hq. revert c c'; induction n as [|n IH]; intros c c' H; cbn [binom]; [apply H; lia|].
  apply Rplus_le_compat; apply Rmult_le_compat_l; try lra; apply IH; intros; apply H; lia.
Qed.

Lemma binom_const n q k : binom n q (fun _ => k) = k.
Proof. induction n; cbn [binom]; [reflexivity|]. rewrite IHn. ring. Qed.

Lemma binom_mono_q n q q' c : 0 <= q -> q <= q' -> q' <= 1 ->
  (forall i, (i < n)%nat -> c i <= c (S i)) -> binom n q c <= binom n q' c.
Proof.
  intros H0 H1 H2. revert c; induction n as [|n IH]; intros c H; cbn [binom]; [lra|].
  assert (A := IH c ltac:(intros; apply H; lia)).
  assert (B := IH (fun i => c (S i)) ltac:(intros; apply H; lia)).
  assert (D : binom n q' c <= binom n q' (fun i => c (S i))).
  { apply binom_le; [lra|]. intros; apply H; lia. }
  nra.
Qed.

Lemma binom_1 n c : binom n 1 c = c n.
Proof. revert c; induction n; intros c; cbn [binom]; [reflexivity|]. rewrite !IHn. ring. Qed.
Lemma binom_0 n c : binom n 0 c = c O.
Proof. revert c; induction n; intros c; cbn [binom]; [reflexivity|]. rewrite !IHn. ring. Qed.

(** ** Integer orders of the Poisson sampled Gaussian *)
Definition gauss_moment (sigma : xr) (i : nat) : R :=
  exp (over_two_var (INR i * INR i - INR i) sigma).

Lemma over_nonneg x sigma : 0 <= x -> 0 <= over_two_var x sigma.
Proof.
  intros H. destruct sigma as [s| | |]; cbn; try lra.
  destruct (Req_dec s 0) as [->|N].
  - replace (2 * (0 * 0)) with 0 by ring. unfold Rdiv. rewrite Rinv_0. lra.
  - apply Rmult_le_pos; [assumption|]. left. apply Rinv_0_lt_compat. assert (0 < s * s) by nra. lra.
Qed.
Lemma over_le x y sigma : x <= y -> over_two_var x sigma <= over_two_var y sigma.
Proof.
  intros H. assert (A := over_nonneg (y - x) sigma ltac:(lra)).
  destruct sigma as [s| | |]; cbn in *; lra.
Qed.

Lemma gauss_moment_ge1 sigma i : 1 <= gauss_moment sigma i.
Proof.
  unfold gauss_moment. rewrite <- exp_0. apply exp_le, over_nonneg.
  destruct i; [cbn; lra|]. rewrite S_INR. pose proof (pos_INR i). nra.
Qed.
Lemma gauss_moment_mono sigma i : gauss_moment sigma i <= gauss_moment sigma (S i).
Proof.
  unfold gauss_moment. apply exp_le, over_le. rewrite S_INR. pose proof (pos_INR i). nra.
Qed.

Lemma log_a_int_exp q sigma alpha : 0 < q < 1 -> (0 <= alpha)%Z ->
  lexp (log_a_int q sigma alpha) =
  rsum (fun i => C (Z.to_nat alpha) i * q ^ i * (1 - q) ^ (Z.to_nat alpha - i) *
                 exp (over_two_var (INR i * INR i - INR i) sigma))
       (seq 0 (S (Z.to_nat alpha))).
Proof.
  intros Hq Ha. unfold log_a_int. rewrite fold_log_add. cbn [lexp]. rewrite Rplus_0_l.
  replace (Z.to_nat (alpha + 1)) with (S (Z.to_nat alpha)) by lia.
  apply rsum_ext. intros i Hi. apply in_seq in Hi. unfold log_a_int_term. cbn [lexp].
  rewrite !exp_plus, log_comb_exp, exp_nat_mul, exp_ln by lra.
  rewrite <- minus_INR by lia. rewrite exp_nat_mul, exp_ln by lra. reflexivity.
Qed.

Lemma log_a_int_binom q sigma alpha : 0 < q < 1 -> (0 <= alpha)%Z ->
  lexp (log_a_int q sigma alpha) = binom (Z.to_nat alpha) q (gauss_moment sigma).
Proof. intros Hq Ha. rewrite log_a_int_exp by assumption. apply binom_sum. Qed.

Lemma log_a_int_val q sigma alpha : 0 < q < 1 -> (0 <= alpha)%Z ->
  log_a_int q sigma alpha = Some (ln (binom (Z.to_nat alpha) q (gauss_moment sigma))) /\
  1 <= binom (Z.to_nat alpha) q (gauss_moment sigma).
Proof.
  intros Hq Ha.
  assert (B : 1 <= binom (Z.to_nat alpha) q (gauss_moment sigma)).
  { rewrite <- (binom_const (Z.to_nat alpha) q 1) at 1. apply binom_le; [lra|].
    intros; apply gauss_moment_ge1. }
  split; [|assumption]. pose proof (log_a_int_binom q sigma alpha Hq Ha) as E.
  destruct (log_a_int q sigma alpha) as [v|]; cbn in E; [|lra].
  rewrite <- E, ln_exp. reflexivity.
Qed.
