(** The Poisson subsampled Gaussian at integer orders. *)
From Verif Require Import Base XReal Exn SpecRdp SpecDP SpecRenyi ProofDP ProofRenyi TypesEvent TypesRelation ModelMake ModelRdp ProofRdpMath ProofConv ProofMono.
Local Arguments Rltb : simpl never.
Local Arguments Rleb : simpl never.
Local Arguments Reqb : simpl never.

(** ln of the binomial sum. *)
Definition poisson_sum (q sigma : R) (a : nat) : R :=
  rsum (fun i => C a i * q ^ i * (1 - q) ^ (a - i) * exp ((INR i * INR i - INR i) / (2 * (sigma * sigma))))
       (seq 0 (S a)).

Lemma poisson_sum_binom q sigma a : poisson_sum q sigma a = binom a q (gauss_moment (Fin sigma)).
Proof. apply (binom_sum a q (gauss_moment (Fin sigma))). Qed.

Lemma is_integer_INR a : is_integer (INR a) = true /\ Rfloor (INR a) = Z.of_nat a.
Proof.
  assert (F : Rfloor (INR a) = Z.of_nat a) by (apply Rfloor_unique; rewrite <- INR_IZR_INZ; lra).
  split; [|exact F]. unfold is_integer. rewrite F, <- INR_IZR_INZ. apply Reqb_refl.
Qed.

Lemma INR_ge2 a : (2 <= a)%nat -> 2 <= INR a.
Proof. intros H. apply (le_INR 2 a H). Qed.

Section P.
  Context (frac : R -> xr -> xr -> xr).

  Lemma poisson_value q sigma a : 0 <= q <= 1 -> 0 < sigma -> (2 <= a)%nat ->
    rdp_poisson_gaussian frac (Fin q) (SNum (Fin sigma)) [Fin (INR a)] =
    Ok [Fin (ln (poisson_sum q sigma a) / (INR a - 1))].
  Proof.
    intros Hq Hs Ha. pose proof (INR_ge2 a Ha) as A2. unfold rdp_poisson_gaussian.
    rewrite (Rleb_true 0 q), (Rleb_true q 1) by lra. cbn [andb negb xltb]. rewrite Rltb_false by lra.
    cbn [map]. f_equal. f_equal. unfold poisson_order. rewrite poisson_sum_binom.
    destruct (Reqb_spec q 0) as [->|Q0].
    { rewrite binom_0. unfold gauss_moment. cbn. replace ((0 * 0 - 0) / (2 * (sigma * sigma))) with 0 by (unfold Rdiv; ring).
      rewrite exp_0, ln_1. unfold Rdiv. f_equal. ring. }
    cbn [isinf xeqb orb]. rewrite (Reqb_false sigma 0) by lra.
    destruct (Reqb_spec q 1) as [->|Q1].
    { rewrite binom_1. unfold gauss_moment, two_var. cbn [over_two_var xmul xdiv].
      rewrite ln_exp. assert (0 < sigma * sigma) by nra. rewrite Reqb_false by lra. f_equal. field. lra. }
    unfold log_a. destruct (is_integer_INR a) as [-> ->].
    destruct (log_a_int_val q (Fin sigma) (Z.of_nat a) ltac:(lra) ltac:(lia)) as [-> _].
    rewrite Nat2Z.id. cbn. rewrite Reqb_false by lra. reflexivity.
  Qed.

  Lemma poisson_sum_ge1 q sigma a : 0 <= q <= 1 -> 1 <= poisson_sum q sigma a.
  Proof.
    intros Hq. rewrite poisson_sum_binom, <- (binom_const a q 1). apply binom_le; [assumption|].
    intros i _. apply gauss_moment_ge1.
  Qed.
  Lemma poisson_sum_mono q q' sigma a : 0 <= q -> q <= q' -> q' <= 1 -> poisson_sum q sigma a <= poisson_sum q' sigma a.
  Proof.
    intros. rewrite !poisson_sum_binom. apply binom_mono_q; try assumption. intros. apply gauss_moment_mono.
  Qed.

  Lemma poisson_bounds q q' sigma a r r' : 0 <= q -> q <= q' -> q' <= 1 -> 0 < sigma -> (2 <= a)%nat ->
    rdp_poisson_gaussian frac (Fin q) (SNum (Fin sigma)) [Fin (INR a)] = Ok [Fin r] ->
    rdp_poisson_gaussian frac (Fin q') (SNum (Fin sigma)) [Fin (INR a)] = Ok [Fin r'] ->
    0 <= r /\ r <= r' /\ r' <= INR a / (2 * (sigma * sigma)).
  Proof.
    intros H0 H1 H2 Hs Ha E E'. rewrite poisson_value in E, E' by (assumption || lra).
    injection E as <-. injection E' as <-. pose proof (INR_ge2 a Ha) as A2.
    pose proof (poisson_sum_ge1 q sigma a ltac:(lra)) as G.
    pose proof (poisson_sum_mono q q' sigma a H0 H1 H2) as M.
    pose proof (poisson_sum_mono q' 1 sigma a ltac:(lra) H2 ltac:(lra)) as M1.
    assert (I : 0 < / (INR a - 1)) by (apply Rinv_0_lt_compat; lra).
    assert (L0 : 0 <= ln (poisson_sum q sigma a)) by (rewrite <- ln_1; apply ln_le_mono; lra).
    assert (L1 : ln (poisson_sum q sigma a) <= ln (poisson_sum q' sigma a)) by (apply ln_le_mono; lra).
    assert (L2 : ln (poisson_sum q' sigma a) <= ln (poisson_sum 1 sigma a)) by (apply ln_le_mono; lra).
    split; [apply Rmult_le_pos; lra|]. split; [apply Rmult_le_compat_r; lra|].
    apply Rle_trans with (ln (poisson_sum 1 sigma a) / (INR a - 1)); [apply Rmult_le_compat_r; lra|].
    rewrite poisson_sum_binom, binom_1. unfold gauss_moment, over_two_var. rewrite ln_exp.
    apply Req_le. assert (0 < sigma * sigma) by nra. field. lra.
  Qed.
End P.

(** ** Subsampling any mechanism with the Gaussian's curve *)
Lemma binom_pow n q x : binom n q (fun i => x ^ i) = (1 - q + q * x) ^ n.
Proof.
  revert x; induction n as [|n IH]; intros x; [reflexivity|]. cbn [binom pow].
  assert (E : forall m c y, binom m q (fun i => y * c i) = y * binom m q c).
  { clear. induction m; intros c y; cbn [binom]; [reflexivity|]. rewrite (IHm c), (IHm (fun i => c (S i))). ring. }
  rewrite (E n (fun i => x ^ i) x), IH. ring.
Qed.

Lemma binom_rsum {A} n q (f : A -> nat -> R) l :
  rsum (fun o => binom n q (f o)) l = binom n q (fun i => rsum (fun o => f o i) l).
Proof.
  revert f; induction n as [|n IH]; intros f; cbn [binom]; [reflexivity|].
  rewrite rsum_plus, !rsum_scal, (IH f), (IH (fun o i => f o (S i))). reflexivity.
Qed.

Lemma mix_valid q E : 0 <= q <= 1 -> valid E -> valid (poisson_mix q E).
Proof.
  intros Hq V. split; [|split].
  - intros o Ho. cbn. pose proof (P_pos E V o Ho). pose proof (Q_pos E V o Ho).
    split; [|assumption]. assert (0 <= (1 - q) * prQ E o) by (apply Rmult_le_pos; lra).
    assert (0 <= q * prP E o) by (apply Rmult_le_pos; lra). lra.
  - cbn. rewrite rsum_plus, !rsum_scal, (P_sum E V), (Q_sum E V). ring.
  - apply (Q_sum E V).
Qed.
Lemma mix_ac q E : absolutely_continuous E -> absolutely_continuous (poisson_mix q E).
Proof. intros AC o Ho Z. cbn in *. rewrite Z, (AC o Ho Z). ring. Qed.

Lemma Rpower_INR x n : 0 < x -> Rpower x (INR n - 1) * x = x ^ n.
Proof.
  intros Hx. rewrite <- (Rpower_1 x) at 2 by assumption. rewrite <- Rpower_plus.
  replace (INR n - 1 + 1) with (INR n) by ring. apply Rpower_pow. assumption.
Qed.

Lemma mix_moment q E n : 0 < q <= 1 -> valid E -> absolutely_continuous E -> (1 <= n)%nat ->
  renyi_moment (poisson_mix q E) (INR n) =
  binom n q (fun i => rsum (fun o => if Reqb (prQ E o) 0 then 0 else prQ E o * (prP E o / prQ E o) ^ i) (outs E)).
Proof.
  intros Hq V AC Hn. rewrite <- binom_rsum. unfold renyi_moment. apply rsum_ext. intros o Ho.
  cbn [prP prQ poisson_mix]. pose proof (P_pos E V o Ho) as HP. pose proof (Q_pos E V o Ho) as HQ.
  destruct (Reqb_spec (prQ E o) 0) as [Z|N].
  - rewrite Z, (AC o Ho Z), Reqb_true by ring. rewrite binom_const. reflexivity.
  - assert (HQ' : 0 < prQ E o) by lra. set (x := prP E o / prQ E o).
    assert (Hx : 0 <= x) by (apply Rmult_le_pos; [assumption | left; apply Rinv_0_lt_compat; assumption]).
    assert (Ex : prP E o = x * prQ E o) by (unfold x; field; assumption).
    assert (Sc : forall m c y, binom m q (fun i => y * c i) = y * binom m q c).
    { clear. induction m; intros c y; cbn [binom]; [reflexivity|]. rewrite (IHm c), (IHm (fun i => c (S i))). ring. }
    rewrite (Sc n (fun i => x ^ i)), binom_pow. rewrite Ex.
    replace ((1 - q) * prQ E o + q * (x * prQ E o)) with ((1 - q + q * x) * prQ E o) by ring.
    set (y := 1 - q + q * x). assert (Hy : 0 <= y) by (unfold y; nra).
    destruct (Req_dec y 0) as [Y0|Y0].
    + rewrite Y0, Rmult_0_l, Reqb_refl, pow_i by lia. ring.
    + rewrite Reqb_false by (apply Rmult_integral_contrapositive_currified; assumption).
      replace (y * prQ E o / prQ E o) with y by (field; assumption).
      rewrite <- (Rpower_INR y n) by lra. ring.
Qed.

Lemma base_moment E i : valid E -> absolutely_continuous E -> (1 <= i)%nat ->
  rsum (fun o => if Reqb (prQ E o) 0 then 0 else prQ E o * (prP E o / prQ E o) ^ i) (outs E) =
  renyi_moment E (INR i).
Proof.
  intros V AC Hi. unfold renyi_moment. apply rsum_ext. intros o Ho.
  pose proof (P_pos E V o Ho) as HP. pose proof (Q_pos E V o Ho) as HQ.
  destruct (Reqb_spec (prQ E o) 0) as [Z|N].
  - rewrite (AC o Ho Z), Reqb_refl. reflexivity.
  - destruct (Reqb_spec (prP E o) 0) as [Z|NP].
    + rewrite Z. unfold Rdiv. rewrite Rmult_0_l, pow_i by lia. ring.
    + rewrite <- Rpower_INR by (apply Rdiv_lt_0_compat; lra). field. assumption.
Qed.

Lemma mix_sound frac q sigma a r E : 0 < q <= 1 -> 0 < sigma -> (2 <= a)%nat -> valid E ->
  (forall i, (2 <= i <= a)%nat -> renyi_bounded E (Fin (INR i)) (Fin (INR i / (2 * (sigma * sigma))))) ->
  rdp_poisson_gaussian frac (Fin q) (SNum (Fin sigma)) [Fin (INR a)] = Ok [r] ->
  renyi_bounded (poisson_mix q E) (Fin (INR a)) r.
Proof.
  intros Hq Hs Ha V B H. rewrite poisson_value in H by (assumption || lra). injection H as <-.
  pose proof (INR_ge2 a Ha) as A2.
  assert (AC : absolutely_continuous E) by (apply (B a); lia).
  split; [apply mix_ac; assumption|]. split; [lra|].
  apply renyi_moment_le; [apply mix_valid; lra || assumption | apply mix_ac; assumption | lra|].
  pose proof (poisson_sum_ge1 q sigma a ltac:(lra)) as G.
  replace ((INR a - 1) * (ln (poisson_sum q sigma a) / (INR a - 1))) with (ln (poisson_sum q sigma a)) by (field; lra).
  rewrite exp_ln by lra. rewrite mix_moment by (assumption || lia). rewrite poisson_sum_binom.
  apply binom_le; [lra|]. intros i Hi. destruct i as [|[|i]].
  - unfold gauss_moment. cbn. replace ((0 * 0 - 0) / (2 * (sigma * sigma))) with 0 by (unfold Rdiv; ring).
    rewrite exp_0. apply Rle_trans with (rsum (prQ E) (outs E)); [|rewrite (Q_sum E V); lra]. apply rsum_le. intros o Ho. destruct (Reqb_spec (prQ E o) 0) as [->|]; lra.
  - unfold gauss_moment. cbn. replace ((1 * 1 - 1) / (2 * (sigma * sigma))) with 0 by (unfold Rdiv; ring).
    rewrite exp_0. apply Rle_trans with (rsum (prP E) (outs E)); [|rewrite (P_sum E V); lra]. apply rsum_le. intros o Ho. destruct (Reqb_spec (prQ E o) 0) as [Z|N].
    + rewrite (AC o Ho Z). lra.
    + apply Req_le. field. assumption.
  - rewrite base_moment by (assumption || lia).
    destruct (B (S (S i)) ltac:(lia)) as [_ [_ R]].
    pose proof (INR_ge2 (S (S i)) ltac:(lia)) as I2.
    apply (renyi_moment_le E (INR (S (S i))) _ V AC) in R; [|lra].
    eapply Rle_trans; [exact R|]. apply Req_le. unfold gauss_moment, over_two_var. f_equal.
    assert (0 < sigma * sigma) by nra. field. lra.
Qed.
