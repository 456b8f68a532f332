(** The series for fractional orders bounds the moments of the sampled Gaussian mechanism. *)
From Verif Require Import Base XReal Exn TypesEvent TypesRelation TypesAdjacency SpecEvent SpecDP SpecMake SpecMech SpecRun SpecRenyi SpecRdp SpecNoiseAcc SpecAccPld SpecAccountant SpecRdpEvent.
From Verif Require Import ModelMake ModelRdp ModelFrac ProofDP ProofRenyi ProofPeak ProofShape ProofShapeGauss ProofPoisson ProofObserve ProofRefine ProofCuts ProofRdpMath ProofRun ProofNormal ProofGdpConv ProofGdp ProofGdpSeq ProofWorGauss ProofRdpSample ProofBinom ProofConvexDom.
Local Open Scope R_scope.
Local Arguments Rltb : simpl never.
Local Arguments Rleb : simpl never.
Local Arguments Reqb : simpl never.

(** ** The power function lies above its tangents *)
Lemma strict_bernoulli a y : 1 < a -> 0 < y -> y <> 1 -> 1 + a * (y - 1) < Rpower y a.
Proof.
  intros Ha Hy N. assert (P : forall x, 0 < x -> x < 1 -> Rpower x (a - 1) < 1) by (intros x H1 H2; apply ProofGamma.pow_lt1; lra).
  assert (Q : forall x, 1 < x -> 1 < Rpower x (a - 1)).
  { intros x Hx. unfold Rpower. rewrite <- exp_0 at 1. apply exp_increasing. apply Rmult_lt_0_compat; [lra|]. rewrite <- ln_1. apply ln_increasing; lra. }
  destruct (Rlt_le_dec y 1) as [L|L].
  - destruct (MVT_cor2 (fun x => Rpower x a) (fun x => a * Rpower x (a - 1)) y 1 L) as (z & E & Z); [intros z Z; apply derivable_pt_lim_power; lra|].
    rewrite Rpower_1_l in E. specialize (P z ltac:(lra) ltac:(lra)). assert (a * Rpower z (a - 1) * (1 - y) < a * (1 - y)); [|lra].
    rewrite Rmult_assoc. apply Rmult_lt_compat_l; [lra|]. nra.
  - destruct (MVT_cor2 (fun x => Rpower x a) (fun x => a * Rpower x (a - 1)) 1 y ltac:(lra)) as (z & E & Z); [intros z Z; apply derivable_pt_lim_power; lra|].
    rewrite Rpower_1_l in E. specialize (Q z ltac:(lra)). assert (a * (y - 1) < a * Rpower z (a - 1) * (y - 1)); [|lra].
    rewrite Rmult_assoc. apply Rmult_lt_compat_l; [lra|]. nra.
Qed.
Lemma power_tangent a x y : 1 < a -> 0 < x -> 0 < y -> x <> y -> Rpower x a + a * Rpower x (a - 1) * (y - x) < Rpower y a.
Proof.
  intros Ha Hx Hy N. assert (D : 0 < y / x) by (apply Rdiv_lt_0_compat; assumption).
  assert (ND : y / x <> 1) by (intros E; apply N; apply (f_equal (Rmult x)) in E; field_simplify in E; lra).
  pose proof (strict_bernoulli a (y / x) Ha D ND) as B. pose proof (Rpower_pos x a) as P.
  replace (Rpower y a) with (Rpower x a * Rpower (y / x) a) by (rewrite Rpower_mult_distr by assumption; f_equal; field; lra).
  replace (Rpower x a + a * Rpower x (a - 1) * (y - x)) with (Rpower x a * (1 + a * (y / x - 1))); [apply Rmult_lt_compat_l; assumption|].
  rewrite (Rpower_m1 x a Hx). field. lra.
Qed.

Lemma prim_rsum {A} (G g : A -> R -> R) (p : A -> R) l : (forall x, In x l -> prim (G x) (g x) (p x)) ->
  prim (fun z => rsum (fun x => G x z) l) (fun z => rsum (fun x => g x z) l) (rsum p l).
Proof.
  induction l as [|x l IH]; intros H; cbn [rsum]; [apply (const_prim 0)|].
  apply prim_plus; [apply H; left; reflexivity | apply IH; intros y Iy; apply H; right; exact Iy].
Qed.

Section Frac.
  Context (Phi : R -> R) (HPhi : normal_cdf Phi).

  (** ** Several queries at once *)
  Lemma joint_interaction Cs E : joint Cs E -> interaction Cs E.
  Proof. induction 1; constructor; auto. Qed.
  Lemma joint_gdom sigmas s E0 : Forall (fun t => 0 < t) sigmas -> 0 < s -> / (s * s) = rsum (fun t => / (t * t)) sigmas ->
    joint (map (gaussian_query Phi) sigmas) E0 -> gdom Phi (1 / s) E0.
  Proof.
    intros F Hs Sum J. apply joint_interaction in J. assert (S2 : 0 < / (s * s)) by (apply Rinv_0_lt_compat, Rmult_lt_0_compat; assumption).
    assert (G : Forall2 (gclass Phi) (map (fun t => 1 / t) sigmas) (map (gaussian_query Phi) sigmas)).
    { clear -F HPhi. induction F as [|t l Ht F IH]; cbn [map]; constructor; [|exact IH]. split; [apply Rdiv_lt_0_compat; lra|]. intros E HE. apply query_gdom; assumption. }
    assert (NE : map (gaussian_query Phi) sigmas <> []) by (destruct sigmas; [cbn in Sum; lra | discriminate]).
    destruct (gdom_interaction Phi HPhi _ _ J _ G NE) as [G1 _].
    replace (1 / s) with (sqrt (squares (map (fun t => 1 / t) sigmas))); [exact G1|].
    replace (squares (map (fun t => 1 / t) sigmas)) with (1 / s * (1 / s)); [apply sqrt_square; left; apply Rdiv_lt_0_compat; lra|].
    unfold squares. rewrite rsum_map. replace (1 / s * (1 / s)) with (/ (s * s)) by (field; lra). rewrite Sum. apply rsum_ext. intros t It.
    rewrite Forall_forall in F. specialize (F t It). field. lra.
  Qed.

  (** ** One order *)
  Section Order.
    Context (q s a : R) (Hq : 0 < q < 1) (Hs : 0 < s) (Ha : 1 < a) (fl : nat) (Hfl : INR fl < a < INR (S fl)).
    Notation mu := (1 / s).
    Notation z0 := (frac_z0 q s).
    Notation t0 := (- (z0 / s)).
    Definition term0 (i : nat) : R := Rpower q (INR i) * Rpower (1 - q) (a - INR i) * exp ((INR i * INR i - INR i) / (2 * (s * s))) * Phi ((z0 - INR i) / s).
    Definition term1 (i : nat) : R :=
      Rpower q (a - INR i) * Rpower (1 - q) (INR i) * exp (((a - INR i) * (a - INR i) - (a - INR i)) / (2 * (s * s))) * Phi ((a - INR i - z0) / s).

    Lemma gb_abs i : exp (log_comb_real a i) = Rabs (gb a i).
    Proof.
      unfold log_comb_real, lnfact. unfold Rminus at 1. rewrite exp_plus, exp_Ropp, exp_ln by (apply INR_fact_lt_0).
      assert (NZ : forall m, a - INR m <> 0).
      { intros m E. assert (E' : a = INR m) by lra. rewrite E' in Hfl. destruct Hfl as [H1 H2]. apply INR_lt in H1, H2. lia. }
      assert (NF : forall n, INR (fact n) <> 0) by (intros n; apply not_0_INR, fact_neq_0).
      enough (K : exp (rsum (fun m => ln (Rabs (a - INR m))) (seq 0 i)) = Rabs (gb a i) * INR (fact i)) by (rewrite K; field; apply NF).
      induction i as [|i IH]; [cbn; rewrite exp_0, Rabs_R1; ring|].
      rewrite seq_S, rsum_app, exp_plus, IH. cbn [rsum Nat.add]. rewrite Rplus_0_r, exp_ln by (apply Rabs_pos_lt, NZ).
      change (fact (S i)) with (S i * fact i)%nat. rewrite mult_INR. cbn [gb]. unfold Rdiv. rewrite !Rabs_mult, Rabs_inv, (Rabs_right (INR (S i))) by (apply Rle_ge, pos_INR).
      field. apply not_0_INR. lia.
    Qed.
    Lemma s0_term i : exp (frac_s0 Phi q s a i) = Rabs (gb a i) * term0 i.
    Proof.
      unfold frac_s0, log_erfc, term0. rewrite !exp_plus. rewrite gb_abs. pose proof (phi_open Phi HPhi ((z0 - INR i) / s)) as PO.
      assert (S : 0 < sqrt 2) by (apply sqrt_lt_R0; lra). assert (E : sqrt 2 * sqrt 2 = 2) by (apply sqrt_sqrt; lra).
      replace (- ((INR i - z0) / (sqrt 2 * s)) * sqrt 2) with ((z0 - INR i) / s) by (field; split; lra).
      rewrite !exp_ln by lra. unfold Rpower. field.
    Qed.
    Lemma s1_term i : exp (frac_s1 Phi q s a i) = Rabs (gb a i) * term1 i.
    Proof.
      unfold frac_s1, log_erfc, term1. rewrite !exp_plus. rewrite gb_abs. pose proof (phi_open Phi HPhi ((a - INR i - z0) / s)) as PO.
      assert (S : 0 < sqrt 2) by (apply sqrt_lt_R0; lra). assert (E : sqrt 2 * sqrt 2 = 2) by (apply sqrt_sqrt; lra).
      replace (- ((z0 - (a - INR i)) / (sqrt 2 * s)) * sqrt 2) with ((a - INR i - z0) / s) by (field; split; lra).
      rewrite !exp_ln by lra. unfold Rpower. field.
    Qed.
    Lemma term0_nonneg i : 0 <= term0 i.
    Proof. unfold term0. pose proof (phi_open Phi HPhi ((z0 - INR i) / s)). repeat apply Rmult_le_pos; try (left; apply Rpower_pos); try (left; apply exp_pos); lra. Qed.
    Lemma term1_nonneg i : 0 <= term1 i.
    Proof. unfold term1. pose proof (phi_open Phi HPhi ((a - INR i - z0) / s)). repeat apply Rmult_le_pos; try (left; apply Rpower_pos); try (left; apply exp_pos); lra. Qed.

    (** ** The two halves *)
    Definition odds (z : R) : R := q / (1 - q) * lik mu z.
    Lemma lik_pos z : 0 < lik mu z.
    Proof. apply exp_pos. Qed.
    Lemma odds_exp z : odds z = exp (mu * (t0 - z)).
    Proof.
      unfold odds, lik, frac_z0. replace (q / (1 - q)) with (exp (- ln (1 / q - 1))).
      - rewrite <- exp_plus. f_equal. field. lra.
      - assert (P : 0 < 1 / q - 1) by (replace (1 / q - 1) with ((1 - q) / q) by (field; lra); apply Rdiv_lt_0_compat; lra).
        rewrite exp_Ropp, exp_ln by exact P. field. split; [lra|]. replace (1 / q - 1) with ((1 - q) / q) in P by (field; lra). lra.
    Qed.
    Definition right_half (w : nat -> R) (n : nat) (z : R) : R := Rpower (1 - q) a * rsum (fun i => w i * odds z ^ i) (seq 0 (S n)).
    Definition left_half (w : nat -> R) (n : nat) (z : R) : R := Rpower (q * lik mu z) a * rsum (fun i => w i * (/ odds z) ^ i) (seq 0 (S n)).
    Lemma pow_exp x i : exp x ^ i = exp (INR i * x).
    Proof. induction i as [|i IH]; [cbn; rewrite Rmult_0_l, exp_0; reflexivity|]. rewrite S_INR. cbn [pow]. rewrite IH, <- exp_plus. f_equal. ring. Qed.
    Lemma odds_pow z i : odds z ^ i = Rpower q (INR i) * Rpower (1 - q) (- INR i) * exp (INR i * (- mu * z - mu * mu / 2)).
    Proof.
      unfold odds. rewrite Rpow_mult_distr. unfold lik. rewrite pow_exp. f_equal. rewrite Rpower_Ropp, !Rpower_pow by lra. unfold Rdiv. rewrite Rpow_mult_distr, pow_inv. reflexivity.
    Qed.
    Context (c : R) (Hc : 0 < c) (D : forall x, derivable_pt_lim Phi x (c * ProofNormal.bell x)).
    Lemma power_bell p z : c * ProofNormal.bell z * exp (p * (- mu * z - mu * mu / 2)) = exp ((p * p - p) / (2 * (s * s))) * (c * ProofNormal.bell (z + p * mu)).
    Proof.
      rewrite bell_shift. replace (exp (- (p * mu) * z - p * mu * (p * mu) / 2)) with (exp (p * (- mu * z - mu * mu / 2)) * / exp ((p * p - p) / (2 * (s * s)))).
      - field. apply Rgt_not_eq, exp_pos.
      - rewrite <- exp_Ropp, <- exp_plus. f_equal. field. lra.
    Qed.
    Lemma right_prim w n : prim (fun z => rsum (fun i => w i * (Rpower q (INR i) * Rpower (1 - q) (a - INR i) * exp ((INR i * INR i - INR i) / (2 * (s * s)))) * Phi (z + INR i * mu)) (seq 0 (S n)))
      (fun z => c * ProofNormal.bell z * right_half w n z)
      (rsum (fun i => w i * (Rpower q (INR i) * Rpower (1 - q) (a - INR i) * exp ((INR i * INR i - INR i) / (2 * (s * s)))) * 1) (seq 0 (S n))).
    Proof.
      eapply prim_ext; [intros z; reflexivity| |apply (prim_rsum (fun i z => w i * (Rpower q (INR i) * Rpower (1 - q) (a - INR i) * exp ((INR i * INR i - INR i) / (2 * (s * s)))) * Phi (z + INR i * mu)))].
      2: { intros i _. apply prim_scal. apply (phi_shift_prim Phi HPhi c D). }
      intros z. cbn beta. unfold right_half. rewrite <- !rsum_scal. apply rsum_ext. intros i _. rewrite odds_pow.
      replace (Rpower (1 - q) (a - INR i)) with (Rpower (1 - q) a * Rpower (1 - q) (- INR i)) by (unfold Rminus; rewrite <- Rpower_plus; reflexivity).
      pose proof (power_bell (INR i) z) as B.
      transitivity (w i * Rpower q (INR i) * Rpower (1 - q) a * Rpower (1 - q) (- INR i) * (exp ((INR i * INR i - INR i) / (2 * (s * s))) * (c * ProofNormal.bell (z + INR i * mu)))); [ring|].
      rewrite <- B. ring.
    Qed.
    Lemma left_prim w n : prim (fun z => rsum (fun i => w i * (Rpower q (a - INR i) * Rpower (1 - q) (INR i) * exp (((a - INR i) * (a - INR i) - (a - INR i)) / (2 * (s * s)))) * Phi (z + (a - INR i) * mu)) (seq 0 (S n)))
      (fun z => c * ProofNormal.bell z * left_half w n z)
      (rsum (fun i => w i * (Rpower q (a - INR i) * Rpower (1 - q) (INR i) * exp (((a - INR i) * (a - INR i) - (a - INR i)) / (2 * (s * s)))) * 1) (seq 0 (S n))).
    Proof.
      eapply prim_ext; [intros z; reflexivity| |apply (prim_rsum (fun i z => w i * (Rpower q (a - INR i) * Rpower (1 - q) (INR i) * exp (((a - INR i) * (a - INR i) - (a - INR i)) / (2 * (s * s)))) * Phi (z + (a - INR i) * mu)))].
      2: { intros i _. apply prim_scal. apply (phi_shift_prim Phi HPhi c D). }
      intros z. cbn beta. unfold left_half. rewrite <- !rsum_scal. apply rsum_ext. intros i _. rewrite pow_inv, odds_pow.
      rewrite <- Rpower_mult_distr by (lra || apply exp_pos). replace (Rpower (lik mu z) a) with (exp (a * (- mu * z - mu * mu / 2))) by (unfold Rpower, lik; rewrite ln_exp; reflexivity).
      replace (Rpower q (a - INR i)) with (Rpower q a * / Rpower q (INR i)) by (unfold Rminus; rewrite Rpower_plus, Rpower_Ropp; reflexivity).
      pose proof (power_bell (a - INR i) z) as B. rewrite Rpower_Ropp.
      pose proof (Rpower_pos q (INR i)). pose proof (Rpower_pos (1 - q) (INR i)). pose proof (exp_pos (INR i * (- mu * z - mu * mu / 2))).
      transitivity (w i * (Rpower q a * / Rpower q (INR i)) * Rpower (1 - q) (INR i) * (exp (((a - INR i) * (a - INR i) - (a - INR i)) / (2 * (s * s))) * (c * ProofNormal.bell (z + (a - INR i) * mu)))); [ring|].
      rewrite <- B. replace (exp ((a - INR i) * (- mu * z - mu * mu / 2))) with (exp (a * (- mu * z - mu * mu / 2)) * / exp (INR i * (- mu * z - mu * mu / 2))).
      - field. repeat split; lra.
      - rewrite <- exp_Ropp, <- exp_plus. f_equal. ring.
    Qed.
    Definition both_halves (w : nat -> R) (n : nat) : R -> R := glue t0 (left_half w n) (right_half w n).
    Lemma halves_integral w n : integral_is (fun z => c * ProofNormal.bell z * both_halves w n z) (rsum (fun i => w i * (term0 i + term1 i)) (seq 0 (S n))).
    Proof.
      pose proof (prim_glue _ _ _ _ t0 _ _ (left_prim w n) (right_prim w n)) as G. cbn beta in G.
      assert (O1 : odds t0 = 1) by (rewrite odds_exp; replace (mu * (t0 - t0)) with 0 by ring; apply exp_0).
      assert (OL : q * lik mu t0 = 1 - q) by (unfold odds in O1; apply (f_equal (Rmult (1 - q))) in O1; field_simplify in O1; lra).
      specialize (G ltac:(unfold left_half, right_half; rewrite OL, O1, Rinv_1; reflexivity)). apply prim_integral in G.
      match type of G with integral_is _ ?v => replace v with (rsum (fun i => w i * (term0 i + term1 i)) (seq 0 (S n))) in G end.
      - eapply integral_ext; [|exact G]. intros z. unfold both_halves, glue. destruct (Rleb z t0); reflexivity.
      - symmetry. rewrite <- rsum_minus, <- rsum_plus. apply rsum_ext. intros i _. unfold term0, term1.
        replace (- (z0 / s) + (a - INR i) * mu) with ((a - INR i - z0) / s) by (field; lra).
        rewrite (ProofShapeGauss.normal_mirror Phi HPhi (- (z0 / s) + INR i * mu)). replace (- (- (z0 / s) + INR i * mu)) with ((z0 - INR i) / s) by (field; lra). ring.
    Qed.
    Lemma halves_above n z : Rpower (1 - q + q * lik mu z) a <= both_halves (coef a (S fl) n) n z.
    Proof.
      pose proof (lik_pos z) as L. unfold both_halves. assert (O : 0 < odds z) by (rewrite odds_exp; apply exp_pos).
      assert (OE : q * lik mu z = (1 - q) * odds z) by (unfold odds; field; lra).
      destruct (Rle_lt_dec z t0) as [H|H].
      - rewrite glue_le by exact H. unfold left_half. assert (1 <= odds z).
        { rewrite odds_exp. rewrite <- exp_0 at 1. apply exp_le. apply Rmult_le_pos; [left; apply Rdiv_lt_0_compat; lra | lra]. }
        replace (1 - q + q * lik mu z) with (q * lik mu z * (1 + / odds z)) by (rewrite OE; field; lra).
        assert (0 < q * lik mu z) by (apply Rmult_lt_0_compat; lra). assert (0 < / odds z) by (apply Rinv_0_lt_compat; lra).
        rewrite <- Rpower_mult_distr by lra. apply Rmult_le_compat_l; [left; apply Rpower_pos|]. apply power_le_coef; [exact Hfl|]. split; [lra|]. rewrite <- Rinv_1. apply Rinv_le_contravar; lra.
      - rewrite glue_gt by exact H. unfold right_half. assert (odds z <= 1).
        { rewrite odds_exp. apply Rle_trans with (exp 0); [|rewrite exp_0; lra]. apply exp_le. assert (0 < mu) by (apply Rdiv_lt_0_compat; lra). nra. }
        replace (1 - q + q * lik mu z) with ((1 - q) * (1 + odds z)) by (rewrite OE; ring).
        rewrite <- Rpower_mult_distr by lra. apply Rmult_le_compat_l; [left; apply Rpower_pos|]. apply power_le_coef; [exact Hfl | lra].
    Qed.
  End Order.

  (** ** The moment *)
  Lemma moment_le q s a fl n sigmas E0 : 0 < q < 1 -> 0 < s -> 1 < a -> INR fl < a < INR (S fl) ->
    Forall (fun t => 0 < t) sigmas -> / (s * s) = rsum (fun t => / (t * t)) sigmas -> joint (map (gaussian_query Phi) sigmas) E0 ->
    renyi_moment (poisson_mix q E0) a <= rsum (fun i => coef a (S fl) n i * (term0 q s a i + term1 q s a i)) (seq 0 (S n)).
  Proof.
    intros Hq Hs Ha Hfl F Sum J. pose proof HPhi as (_ & c & Hc & D).
    pose proof (joint_gdom sigmas s E0 F Hs Sum J) as G. destruct (joint_bounded Phi HPhi sigmas E0 1 F J ltac:(lra)) as [V [[AC _] _]].
    pose proof (dominated Phi HPhi c Hc D (1 / s) E0 (fun L => Rpower (1 - q + q * L) a) (fun L => a * q * Rpower (1 - q + q * L) (a - 1)) (both_halves q s a (coef a (S fl) n) n)
      (rsum (fun i => coef a (S fl) n i * (term0 q s a i + term1 q s a i)) (seq 0 (S n))) ltac:(apply Rdiv_lt_0_compat; lra) G) as DD. cbn beta in DD.
    assert (EQ : renyi_moment (poisson_mix q E0) a = rsum (fun o => if Reqb (prQ E0 o) 0 then 0 else prQ E0 o * Rpower (1 - q + q * (prP E0 o / prQ E0 o)) a) (outs E0)).
    { unfold renyi_moment. cbn [outs poisson_mix prP prQ]. apply rsum_ext. intros o Io. destruct (proj1 V o Io) as [N1 N2].
      destruct (Reqb_spec (prQ E0 o) 0) as [Z|NZ].
      - rewrite Z, (AC o Io Z). rewrite Reqb_true by ring. reflexivity.
      - assert (PQ : 0 < prQ E0 o) by lra. assert (0 < (1 - q) * prQ E0 o) by (apply Rmult_lt_0_compat; lra). assert (0 <= q * prP E0 o) by (apply Rmult_le_pos; lra).
        rewrite Reqb_false by lra. replace (((1 - q) * prQ E0 o + q * prP E0 o) / prQ E0 o) with (1 - q + q * (prP E0 o / prQ E0 o)) by (field; lra).
        assert (0 < 1 - q + q * (prP E0 o / prQ E0 o)).
        { replace (1 - q + q * (prP E0 o / prQ E0 o)) with (((1 - q) * prQ E0 o + q * prP E0 o) / prQ E0 o) by (field; lra). apply Rdiv_lt_0_compat; lra. }
        rewrite (Rpower_m1 (1 - q + q * (prP E0 o / prQ E0 o)) a) by assumption. field. lra. }
    rewrite EQ. apply DD.
    - intros x y Hx Hy N. pose proof (power_tangent a (1 - q + q * x) (1 - q + q * y) Ha ltac:(nra) ltac:(nra) ltac:(nra)) as T. 
      replace (a * q * Rpower (1 - q + q * x) (a - 1) * (y - x)) with (a * Rpower (1 - q + q * x) (a - 1) * (1 - q + q * y - (1 - q + q * x))) by ring. exact T.
    - exact AC.
    - apply halves_integral; assumption.
    - intros z. apply halves_above; assumption.
  Qed.

  (** ** The loop *)
  Lemma loop_value q s a steps : forall i a0 a1 l0 l1, 
    frac_loop Phi q s a steps i a0 a1 l0 l1 = None \/
    exists n x, (i <= n < i + steps)%nat /\ frac_loop Phi q s a steps i a0 a1 l0 l1 = Some (n, Some x) /\
      exp x = lexp a0 + lexp a1 + rsum (fun k => exp (frac_s0 Phi q s a k) + exp (frac_s1 Phi q s a k)) (seq i (S n - i)) /\
      exp (frac_s0 Phi q s a n) <= exp x * exp (- (30)) /\ exp (frac_s1 Phi q s a n) <= exp x * exp (- (30)).
  Proof.
    induction steps as [|steps IH]; intros i a0 a1 l0 l1; cbn [frac_loop]; [left; reflexivity|].
    set (t0 := Some (frac_s0 Phi q s a i)). set (t1 := Some (frac_s1 Phi q s a i)).
    destruct (lltb t0 l0 && lltb t1 l1 && lltb (lmax t0 t1) (ladd (log_add (log_add a0 t0) (log_add a1 t1)) (Some (- (30)))))%bool eqn:C.
    - right. apply Bool.andb_true_iff in C. destruct C as [_ C]. assert (T : lexp (log_add (log_add a0 t0) (log_add a1 t1)) = lexp a0 + lexp t0 + (lexp a1 + lexp t1)) by (rewrite !log_add_exp; reflexivity).
      destruct (log_add (log_add a0 t0) (log_add a1 t1)) as [x|]; [|unfold lltb in C; cbn [ladd] in C; destruct (lmax t0 t1); discriminate].
      exists i, x. split; [lia|]. split; [reflexivity|]. cbn [lexp t0 t1] in T. split.
      + rewrite T. replace (S i - i)%nat with 1%nat by lia. cbn [seq rsum]. ring.
      + cbn [ladd] in C. apply lltb_exp in C. cbn [lexp] in C. rewrite exp_plus in C.
        assert (M : lexp t0 <= lexp (lmax t0 t1) /\ lexp t1 <= lexp (lmax t0 t1)).
        { unfold lmax. destruct (lltb t0 t1) eqn:L; [apply lltb_exp in L; lra|]. split; [lra|]. destruct (Rle_lt_dec (lexp t1) (lexp t0)) as [|K]; [assumption|]. apply lltb_exp in K. congruence. }
        cbn [lexp t0 t1] in M. lra.
    - destruct (IH (S i) (log_add a0 t0) (log_add a1 t1) t0 t1) as [E|(n & x & Hn & E & V & B)]; [left; exact E|].
      right. exists n, x. split; [lia|]. split; [exact E|]. split; [|exact B]. rewrite V, !log_add_exp. replace (S n - i)%nat with (S (S n - S i)) by lia. cbn [seq rsum lexp t0 t1]. ring.
  Qed.

  (** The series is at most this factor below the moment, and not at all if it goes beyond the order. *)
  Lemma series_at q s a fl n x sigmas E0 : 0 < q < 1 -> 0 < s -> 1 < a -> INR fl < a < INR (S fl) ->
    Forall (fun t => 0 < t) sigmas -> / (s * s) = rsum (fun t => / (t * t)) sigmas -> joint (map (gaussian_query Phi) sigmas) E0 ->
    exp x = rsum (fun k => exp (frac_s0 Phi q s a k) + exp (frac_s1 Phi q s a k)) (seq 0 (S n)) ->
    exp (frac_s0 Phi q s a n) <= exp x * exp (- (30)) -> exp (frac_s1 Phi q s a n) <= exp x * exp (- (30)) ->
    renyi_moment (poisson_mix q E0) a <= exp x * (1 + (if (S fl <=? n)%nat then 0 else 2 ^ (fl + 2) * exp (- (30)))).
  Proof.
    intros Hq Hs Ha Hfl F Sum J V B0 B1.
    eapply Rle_trans; [apply (moment_le q s a fl n sigmas E0); assumption|].
    rewrite Rmult_plus_distr_l, Rmult_1_r.
    set (u := fun i => term0 q s a i + term1 q s a i).
    assert (U : forall i, 0 <= u i) by (intros i; unfold u; pose proof (term0_nonneg q s a i); pose proof (term1_nonneg q s a i); lra).
    assert (V' : exp x = rsum (fun i => Rabs (gb a i) * u i) (seq 0 (S n))).
    { rewrite V. apply rsum_ext. intros i _. rewrite (s0_term q s a Hs fl Hfl), (s1_term q s a Hs fl Hfl). unfold u. ring. }
    assert (SC : rsum (fun i => coef a (S fl) n i * u i) (seq 0 (S n)) = rsum (fun i => Rabs (gb a i) * u i) (seq 0 (S n)) + rest a (S fl) n * u n).
    { unfold coef. rewrite (rsum_ext _ (fun i => Rabs (gb a i) * u i + (if (i =? n)%nat then rest a (S fl) n * u n else 0))).
      - rewrite rsum_plus. f_equal. rewrite seq_S, rsum_app. cbn [rsum Nat.add]. rewrite Nat.eqb_refl, rsum_zero; [ring|]. intros i Ii. apply in_seq in Ii. destruct (Nat.eqb_spec i n); [lia | reflexivity].
      - intros i _. destruct (Nat.eqb_spec i n) as [->|]; ring. }
    change (rsum (fun i => coef a (S fl) n i * u i) (seq 0 (S n)) <= exp x + exp x * (if (S fl <=? n)%nat then 0 else 2 ^ (fl + 2) * exp (- (30)))).
    rewrite SC, <- V'. apply Rplus_le_compat_l. pose proof (exp_pos x) as X. pose proof (exp_pos (- (30))) as X3. assert (P2 : 0 < 2 ^ S fl) by (apply pow_lt; lra).
    replace (2 ^ (fl + 2)) with (2 * 2 ^ S fl) by (replace (fl + 2)%nat with (S (S fl)) by lia; cbn [pow]; ring).
    unfold rest. destruct (S fl <=? n)%nat eqn:Le.
    - lra.
    - apply Nat.leb_gt in Le. assert (L : INR n <= a) by (assert (INR n <= INR fl) by (apply le_INR; lia); lra).
      pose proof (gb_large a n L) as GL. rewrite (s0_term q s a Hs fl Hfl) in B0. rewrite (s1_term q s a Hs fl Hfl) in B1. rewrite Rabs_right in B0, B1 by lra.
      pose proof (term0_nonneg q s a n). pose proof (term1_nonneg q s a n).
      assert (u n <= 2 * (exp x * exp (- (30)))) by (unfold u; nra).
      replace (exp x * (2 * 2 ^ S fl * exp (- (30)))) with (2 ^ S fl * (2 * (exp x * exp (- (30))))) by ring. apply Rmult_le_compat_l; lra.
  Qed.

  Lemma floor_nat a : 1 < a -> is_integer a = false -> INR (Z.to_nat (Rfloor a)) < a < INR (S (Z.to_nat (Rfloor a))).
  Proof.
    intros Ha I. pose proof (Rfloor_spec a) as FS. rewrite S_INR, INR_IZR_INZ, Z2Nat.id by (apply le_IZR; assert (IZR 0 < IZR (Rfloor a) + 1) by lra; rewrite <- plus_IZR in *; apply IZR_le; apply lt_IZR in H; lia).
    unfold is_integer in I. destruct (Reqb_spec a (IZR (Rfloor a))) as [|N]; [discriminate|]. lra.
  Qed.
  Theorem series q s a sigmas E0 : 0 < q < 1 -> 0 < s -> 1 < a -> is_integer a = false ->
    Forall (fun t => 0 < t) sigmas -> / (s * s) = rsum (fun t => / (t * t)) sigmas -> joint (map (gaussian_query Phi) sigmas) E0 ->
    match log_a_frac Phi q (Fin s) (Fin a) with
    | Fin x => renyi_moment (poisson_mix q E0) a <= exp x * (1 + 2 ^ (Z.to_nat (Rfloor a) + 2) * exp (- (30)))
    | PInf => True
    | _ => False
    end.
  Proof.
    intros Hq Hs Ha I F Sum J. pose proof (floor_nat a Ha I) as Hfl. unfold log_a_frac.
    destruct (loop_value q s a 1000 0 None None None None) as [->|(n & x & Hn & -> & V & B0 & B1)]; [exact Logic.I|]. cbn [xr_of_logp].
    cbn [lexp] in V. rewrite !Rplus_0_l, Nat.sub_0_r in V. eapply Rle_trans; [eapply series_at; eassumption|].
    apply Rmult_le_compat_l; [left; apply exp_pos|]. apply Rplus_le_compat_l. destruct (S _ <=? n)%nat; [|lra]. apply Rmult_le_pos; [apply pow_le; lra | left; apply exp_pos].
  Qed.
  Theorem series_long q s a n t sigmas E0 : 0 < q < 1 -> 0 < s -> 1 < a -> is_integer a = false ->
    Forall (fun t => 0 < t) sigmas -> / (s * s) = rsum (fun t => / (t * t)) sigmas -> joint (map (gaussian_query Phi) sigmas) E0 ->
    frac_loop Phi q s a 1000 0 None None None None = Some (n, t) -> a <= INR n ->
    exists x, log_a_frac Phi q (Fin s) (Fin a) = Fin x /\ renyi_moment (poisson_mix q E0) a <= exp x.
  Proof.
    intros Hq Hs Ha I F Sum J L N. pose proof (floor_nat a Ha I) as Hfl. unfold log_a_frac.
    destruct (loop_value q s a 1000 0 None None None None) as [E|(n' & x & Hn & E & V & B0 & B1)]; rewrite L in *; [discriminate|]. injection E as -> ->. cbn [xr_of_logp].
    exists x. split; [reflexivity|]. cbn [lexp] in V. rewrite !Rplus_0_l, Nat.sub_0_r in V. eapply Rle_trans; [eapply series_at; eassumption|].
    assert (LE : (S (Z.to_nat (Rfloor a)) <= n')%nat) by (assert (INR (Z.to_nat (Rfloor a)) < INR n') by lra; apply INR_lt in H; lia).
    apply Nat.leb_le in LE. rewrite LE. lra.
  Qed.
End Frac.
