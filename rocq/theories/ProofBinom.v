(** Binomial expansions with a real exponent. *)
From Verif Require Import Base XReal SpecDP ProofDP ProofShape.
Local Open Scope R_scope.

Fixpoint gb (a : R) (i : nat) : R := match i with O => 1 | S i => gb a i * (a - INR i) / INR (S i) end.
Lemma gb_S a i : INR (S i) * gb a (S i) = gb a i * (a - INR i).
Proof. cbn [gb]. pose proof (pos_INR i). rewrite S_INR. field. lra. Qed.
Lemma gb_shift a i : INR (S i) * gb a (S i) = a * gb (a - 1) i.
Proof.
  induction i as [|i IH]; [cbn; field|]. rewrite gb_S. pose proof (pos_INR i). pose proof (S_INR i) as SI.
  apply Rmult_eq_reg_l with (INR (S i)); [|lra].
  replace (INR (S i) * (gb a (S i) * (a - INR (S i)))) with ((INR (S i) * gb a (S i)) * (a - INR (S i))) by ring. rewrite IH.
  replace (INR (S i) * (a * gb (a - 1) (S i))) with (a * (INR (S i) * gb (a - 1) (S i))) by ring. rewrite gb_S. rewrite SI. ring.
Qed.
Lemma gb_pascal a i : gb a (S i) = gb (a - 1) (S i) + gb (a - 1) i.
Proof.
  apply Rmult_eq_reg_l with (INR (S i)); [|pose proof (pos_INR i); rewrite S_INR; lra].
  rewrite gb_shift, Rmult_plus_distr_l, gb_S, S_INR. ring.
Qed.
Lemma gb_nonneg a i : INR i <= a + 1 -> 0 <= gb a i.
Proof.
  induction i as [|i IH]; intros H; [cbn; lra|]. rewrite S_INR in H. pose proof (pos_INR i). cbn [gb]. rewrite S_INR.
  apply Rmult_le_pos; [apply Rmult_le_pos; [apply IH; lra | lra] | left; apply Rinv_0_lt_compat; lra].
Qed.
Lemma gb_pos a i : INR i < a + 1 -> 0 < gb a i.
Proof.
  induction i as [|i IH]; intros H; [cbn; lra|]. rewrite S_INR in H. pose proof (pos_INR i). cbn [gb]. rewrite S_INR.
  apply Rmult_lt_0_compat; [apply Rmult_lt_0_compat; [apply IH; lra | lra] | apply Rinv_0_lt_compat; lra].
Qed.
(** The first coefficient beyond the order is negative. *)
Lemma gb_turn a c : INR c - 1 < a < INR c -> gb a (S c) <= 0.
Proof.
  intros H. cbn [gb]. pose proof (gb_pos a c ltac:(lra)) as P. pose proof (pos_INR c). rewrite S_INR.
  assert (0 < / (INR c + 1)) by (apply Rinv_0_lt_compat; lra). unfold Rdiv. rewrite Rmult_assoc.
  assert ((a - INR c) * / (INR c + 1) <= 0) by nra. nra.
Qed.
Definition partial (a : R) (c : nat) (x : R) : R := rsum (fun i => gb a i * x ^ i) (seq 0 (S c)).
Lemma partial_S a c x : partial a (S c) x = partial a c x + gb a (S c) * x ^ S c.
Proof. unfold partial. rewrite (seq_S (S c)), rsum_app. cbn [rsum plus]. ring. Qed.
Lemma partial_deriv a c x : derivable_pt_lim (partial a (S c)) x (a * partial (a - 1) c x).
Proof.
  induction c as [|c IH].
  - unfold partial. cbn [seq rsum gb pow]. replace (a * _) with (0 + (a * 1 + 0)) by ring.
    apply derivable_pt_lim_plus with (f1 := fun x => 1 * 1) (f2 := fun x => 1 * (a - INR 0) / INR 1 * (x * 1) + 0); [apply derivable_pt_lim_const|].
    apply derivable_pt_lim_plus with (f1 := fun x => 1 * (a - INR 0) / INR 1 * (x * 1)) (f2 := fun x => 0); [|apply derivable_pt_lim_const].
    replace (a * 1) with (1 * (a - INR 0) / INR 1 * 1) by (cbn [INR]; field). apply derivable_pt_lim_scal with (f := fun x => x * 1).
    intros e He. exists (mkposreal 1 Rlt_0_1). intros h Hh _. replace (((x + h) * 1 - x * 1) / h - 1) with 0 by (field; exact Hh). rewrite Rabs_R0. exact He.
  - assert (E : forall y, partial a (S (S c)) y = partial a (S c) y + gb a (S (S c)) * y ^ S (S c)) by (intros y; apply partial_S).
    intros e He. assert (G : derivable_pt_lim (fun y => partial a (S c) y + gb a (S (S c)) * y ^ S (S c)) x (a * partial (a - 1) (S c) x)).
    { rewrite partial_S, Rmult_plus_distr_l. apply derivable_pt_lim_plus; [exact IH|].
      replace (a * (gb (a - 1) (S c) * x ^ S c)) with (gb a (S (S c)) * (INR (S (S c)) * x ^ pred (S (S c)))).
      - apply derivable_pt_lim_scal with (f := fun y => y ^ S (S c)). apply derivable_pt_lim_pow.
      - cbn [pred]. pose proof (gb_shift a (S c)) as G. transitivity (INR (S (S c)) * gb a (S (S c)) * x ^ S c); [ring|]. rewrite G. ring. }
    destruct (G e He) as [del Hd]. exists del. intros h Hh Hl. rewrite !E. apply Hd; assumption.
Qed.
Lemma Rpower_1_l a : Rpower 1 a = 1.
Proof. unfold Rpower. rewrite ln_1, Rmult_0_r. apply exp_0. Qed.
Lemma power_deriv a x : 0 < 1 + x -> derivable_pt_lim (fun y => Rpower (1 + y) a) x (a * Rpower (1 + x) (a - 1)).
Proof.
  intros H. replace (a * Rpower (1 + x) (a - 1)) with (a * Rpower (1 + x) (a - 1) * 1) by ring.
  apply (derivable_pt_lim_comp (fun y => 1 + y) (fun z => Rpower z a) x 1).
  - assert (D : derivable_pt_lim (fun y => 1 + y) x (0 + 1)) by (apply derivable_pt_lim_plus with (f1 := fun _ => 1) (f2 := fun y => y); [apply derivable_pt_lim_const | apply derivable_pt_lim_id]).
    rewrite Rplus_0_l in D. exact D.
  - apply derivable_pt_lim_power, H.
Qed.
Lemma nondecreasing_from (f f' : R -> R) x : 0 <= x -> (forall y, 0 <= y -> derivable_pt_lim f y (f' y)) -> (forall y, 0 <= y -> 0 <= f' y) -> f 0 <= f x.
Proof.
  intros Hx D P. destruct (Req_dec x 0) as [->|N]; [lra|]. destruct (MVT_cor2 f f' 0 x ltac:(lra)) as (z & E & B).
  - intros y By. apply D. lra.
  - specialize (P z ltac:(lra)). nra.
Qed.
(** The expansion up to the order bounds the power. *)
Lemma power_le_partial c : forall a x, INR c < a < INR (S c) -> 0 <= x -> Rpower (1 + x) a <= partial a (S c) x.
Proof.
  induction c as [|c IH]; intros a x Ha Hx; rewrite ?S_INR in Ha.
  - cbn [INR] in Ha.
    enough (K : (fun y => partial a 1 y - Rpower (1 + y) a) 0 <= (fun y => partial a 1 y - Rpower (1 + y) a) x).
    { cbn beta in K. unfold partial in K at 1. cbn [seq rsum gb pow] in K. replace (1 + 0) with 1 in K by ring. rewrite Rpower_1_l in K. cbn [INR] in K. lra. }
    apply (nondecreasing_from (fun y => partial a 1 y - Rpower (1 + y) a)) with (f' := fun y => a * partial (a - 1) 0 y - a * Rpower (1 + y) (a - 1)); [exact Hx| |].
    + intros y Hy. apply derivable_pt_lim_minus; [apply partial_deriv | apply power_deriv; lra].
    + intros y Hy. unfold partial. cbn [seq rsum gb pow]. assert (Rpower (1 + y) (a - 1) <= 1).
      { unfold Rpower. apply Rle_trans with (exp 0); [|right; apply exp_0]. apply exp_le. assert (0 <= ln (1 + y)) by (destruct (Req_dec y 0) as [->|]; [rewrite Rplus_0_r, ln_1; lra | left; rewrite <- ln_1; apply ln_increasing; lra]). nra. }
      nra.
  - pose proof (pos_INR c) as Pc. rewrite ?S_INR in Ha.
    enough (K : (fun y => partial a (S (S c)) y - Rpower (1 + y) a) 0 <= (fun y => partial a (S (S c)) y - Rpower (1 + y) a) x).
    { cbn beta in K. assert (Z : partial a (S (S c)) 0 = 1).
      { unfold partial. change (seq 0 (S (S (S c)))) with (0%nat :: seq 1 (S (S c))). cbn [rsum]. rewrite rsum_zero; [cbn; ring|].
        intros i Hi. apply in_seq in Hi. rewrite pow_ne_zero by lia. ring. }
      rewrite Z in K. replace (1 + 0) with 1 in K by ring. rewrite Rpower_1_l in K. lra. }
    apply (nondecreasing_from (fun y => partial a (S (S c)) y - Rpower (1 + y) a)) with (f' := fun y => a * partial (a - 1) (S c) y - a * Rpower (1 + y) (a - 1)); [exact Hx| |].
    + intros y Hy. apply derivable_pt_lim_minus; [apply partial_deriv | apply power_deriv; lra].
    + intros y Hy. specialize (IH (a - 1) y ltac:(rewrite ?S_INR; lra) Hy). nra.
Qed.
Lemma partial_one c : forall a, INR c < a < INR (S c) -> partial a (S c) 1 <= 2 ^ S c.
Proof.
  assert (P : forall a n, partial a (S n) 1 = 2 * partial (a - 1) n 1 + gb (a - 1) (S n)).
  { intros a n. induction n as [|n IH].
    - unfold partial. cbn [seq rsum gb pow INR]. field.
    - rewrite (partial_S a (S n)), IH, (partial_S (a - 1) n), (gb_pascal a (S n)), !pow1. ring. }
  induction c as [|c IH]; intros a Ha; rewrite ?S_INR in Ha.
  - unfold partial. cbn [seq rsum gb pow INR] in *. lra.
  - rewrite P. rewrite ?S_INR in Ha. specialize (IH (a - 1) ltac:(rewrite S_INR; lra)).
    pose proof (gb_turn (a - 1) (S c) ltac:(rewrite S_INR; lra)) as T. change (2 ^ S (S c)) with (2 * 2 ^ S c). lra.
Qed.
Lemma gb_large a i : INR i <= a -> 1 <= gb a i.
Proof.
  revert a. induction i as [|i IH]; intros a H; [cbn; lra|]. rewrite S_INR in H. rewrite gb_pascal.
  specialize (IH (a - 1) ltac:(lra)). pose proof (gb_nonneg (a - 1) (S i) ltac:(rewrite S_INR; lra)). lra.
Qed.

(** With fewer terms, the rest is bounded by the last one. *)
Definition rest (a : R) (c n : nat) : R := if (c <=? n)%nat then 0 else 2 ^ c.
Definition coef (a : R) (c n i : nat) : R := Rabs (gb a i) + (if (i =? n)%nat then rest a c n else 0).
Lemma rest_nonneg a c n : 0 <= rest a c n.
Proof. unfold rest. destruct (c <=? n)%nat; [lra | apply pow_le; lra]. Qed.
Lemma coef_nonneg a c n i : 0 <= coef a c n i.
Proof. unfold coef. pose proof (Rabs_pos (gb a i)). pose proof (rest_nonneg a c n). destruct (i =? n)%nat; lra. Qed.
Lemma power_le_coef c a n x : INR c < a < INR (S c) -> 0 <= x <= 1 ->
  Rpower (1 + x) a <= rsum (fun i => coef a (S c) n i * x ^ i) (seq 0 (S n)).
Proof.
  intros Ha Hx. eapply Rle_trans; [apply (power_le_partial c a x Ha); lra|]. rewrite ?S_INR in Ha.
  assert (P : forall i, (i <= S c)%nat -> gb a i = Rabs (gb a i)).
  { intros i Hi. symmetry. apply Rabs_pos_eq, gb_nonneg. apply le_INR in Hi. rewrite S_INR in Hi. lra. }
  assert (X : forall i, 0 <= x ^ i) by (intros i; apply pow_le; lra).
  assert (SC : rsum (fun i => coef a (S c) n i * x ^ i) (seq 0 (S n)) = rsum (fun i => Rabs (gb a i) * x ^ i) (seq 0 (S n)) + rest a (S c) n * x ^ n).
  { rewrite seq_S, !rsum_app. cbn [plus rsum]. unfold coef at 2. rewrite Nat.eqb_refl.
    rewrite (rsum_ext (fun i => coef a (S c) n i * x ^ i) (fun i => Rabs (gb a i) * x ^ i)); [ring|].
    intros i Hi. apply in_seq in Hi. unfold coef. destruct (Nat.eqb_spec i n); [lia | ring]. }
  rewrite SC. unfold rest. destruct (Nat.leb_spec (S c) n) as [L|L].
  - unfold partial. replace (S n) with (S (S c) + (n - S c))%nat by lia. rewrite seq_app, rsum_app.
    assert (0 <= rsum (fun i => Rabs (gb a i) * x ^ i) (seq (0 + S (S c)) (n - S c))) by (apply rsum_nonneg; intros i _; apply Rmult_le_pos; [apply Rabs_pos | apply X]).
    assert (rsum (fun i => gb a i * x ^ i) (seq 0 (S (S c))) = rsum (fun i => Rabs (gb a i) * x ^ i) (seq 0 (S (S c)))); [|lra].
    apply rsum_ext. intros i Hi. apply in_seq in Hi. rewrite <- P by lia. reflexivity.
  - unfold partial. replace (S (S c)) with (S n + (S c - n))%nat at 1 by lia. rewrite seq_app, rsum_app.
    apply Rplus_le_compat; [right; apply rsum_ext; intros i Hi; apply in_seq in Hi; rewrite <- P by lia; reflexivity|].
    pose proof (partial_one c a ltac:(rewrite S_INR; lra)) as T. unfold partial in T. replace (S (S c)) with (S n + (S c - n))%nat in T at 1 by lia. rewrite seq_app, rsum_app in T.
    assert (0 <= rsum (fun i => gb a i * 1 ^ i) (seq 0 (S n))).
    { apply rsum_nonneg. intros i Hi. apply in_seq in Hi. rewrite P by lia. rewrite pow1. pose proof (Rabs_pos (gb a i)). lra. }
    apply Rle_trans with (rsum (fun i => gb a i * 1 ^ i) (seq (0 + S n) (S c - n)) * x ^ n).
    + rewrite Rmult_comm, <- rsum_scal. apply rsum_le. intros i Hi. apply in_seq in Hi. rewrite (P i) by lia. rewrite pow1, Rmult_1_r, Rmult_comm.
      apply Rmult_le_compat_r; [apply Rabs_pos|]. replace i with (n + (i - n))%nat by lia. rewrite pow_add. pose proof (X n). 
      assert (x ^ (i - n) <= 1) by (rewrite <- (pow1 (i - n)); apply pow_incr; lra). nra.
    + apply Rmult_le_compat_r; [apply X|]. lra.
Qed.
