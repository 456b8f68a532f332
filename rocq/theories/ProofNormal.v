(** The standard normal distribution function exists. *)
From Coquelicot Require Import Coquelicot.
From Verif Require Import Base XReal TypesAdjacency SpecDP SpecMech ProofShape.
Local Open Scope R_scope.

Definition bell (x : R) : R := exp (- (x * x) / 2).
Definition bell_int (x : R) : R := RInt bell 0 x.

Lemma bell_continuous x : continuous bell x.
Proof.
  apply (ex_derive_continuous bell). unfold bell. auto_derive. exact Logic.I.
Qed.
Lemma bell_int_deriv x : derivable_pt_lim bell_int x (bell x).
Proof.
  apply is_derive_Reals. unfold bell_int. apply (is_derive_RInt bell (fun y => RInt bell 0 y) 0 x); [|apply bell_continuous].
  exists (mkposreal 1 Rlt_0_1). intros y _. apply (RInt_correct bell 0 y). apply (ex_RInt_continuous bell). intros z _. apply bell_continuous.
Qed.
Lemma bell_int_0 : bell_int 0 = 0.
Proof. unfold bell_int. rewrite RInt_point. reflexivity. Qed.
Lemma bell_int_mono x y : x <= y -> bell_int x <= bell_int y.
Proof.
  intros H. apply (deriv_nonneg bell_int bell x y bell_int_deriv H). intros z _. left. apply exp_pos.
Qed.
Lemma bell_int_odd x : bell_int (- x) = - bell_int x.
Proof.
  set (g := fun y => bell_int y + bell_int (- y)).
  assert (D : forall z, derivable_pt_lim g z 0).
  { intros z. replace 0 with (bell z + - (1) * bell (- z)) by (unfold bell; replace (- z * - z) with (z * z) by ring; ring).
    apply derivable_pt_lim_plus; [apply bell_int_deriv|].
    replace (- (1) * bell (- z)) with (bell (- z) * - (1)) by ring.
    apply (derivable_pt_lim_comp (fun y => - y) bell_int z (- (1)) (bell (- z))); [|apply bell_int_deriv].
    apply derivable_pt_lim_opp, derivable_pt_lim_id. }
  assert (C : forall u v, u <= v -> g u = g v).
  { intros u v L. pose proof (deriv_nonneg g (fun _ => 0) u v D L ltac:(intros; lra)).
    pose proof (deriv_nonpos g (fun _ => 0) u v D L ltac:(intros; lra)). lra. }
  assert (g x = 0).
  { assert (G0 : g 0 = 0) by (unfold g; rewrite Ropp_0, bell_int_0; ring). rewrite <- G0.
    destruct (Rle_dec 0 x); [symmetry; apply C; assumption | apply C; lra]. }
  unfold g in H. lra.
Qed.
Lemma bell_int_bounded x : bell_int x <= exp (1/2).
Proof.
  destruct (Rle_dec x 0) as [Hx|Hx]; [pose proof (bell_int_mono x 0 Hx); rewrite bell_int_0 in *; pose proof (exp_pos (1/2)); lra|].
  set (g := fun y => bell_int y + exp (1/2 - y)).
  assert (g x <= g 0).
  { apply (deriv_nonpos g (fun z => bell z + exp (1/2 - z) * (0 - 1))); [|lra|].
    - intros z. apply derivable_pt_lim_plus; [apply bell_int_deriv|].
      apply (derivable_pt_lim_comp (fun y => 1/2 - y) exp); [|apply derivable_pt_lim_exp].
      apply derivable_pt_lim_minus; [apply derivable_pt_lim_const | apply derivable_pt_lim_id].
    - intros z _. assert (bell z <= exp (1/2 - z)); [|lra]. unfold bell. apply exp_le.
      pose proof (Rle_0_sqr (z - 1)) as S. unfold Rsqr in S. lra. }
  unfold g in H. rewrite bell_int_0, Rminus_0_r in H. pose proof (exp_pos (1/2 - x)). lra.
Qed.

Lemma normal_cdf_exists : exists Phi, normal_cdf Phi.
Proof.
  destruct (completeness (fun y => exists x, y = bell_int x)) as (c & UB & LUB).
  - exists (exp (1/2)). intros y [x ->]. apply bell_int_bounded.
  - exists 0, 0. symmetry. apply bell_int_0.
  - assert (U : forall x, bell_int x <= c) by (intros x; apply UB; exists x; reflexivity).
    assert (L : forall x, - c <= bell_int x) by (intros x; pose proof (U (- x)); rewrite bell_int_odd in *; lra).
    assert (A : forall e, 0 < e -> exists x, c - e < bell_int x).
    { intros e He. apply Classical_Prop.NNPP. intros N. assert (c <= c - e); [|lra]. apply LUB. intros y [x ->].
      destruct (Rle_dec (bell_int x) (c - e)); [assumption|]. exfalso. apply N. exists x. lra. }
    assert (P : 0 < c).
    { apply Rlt_le_trans with (bell_int 1); [|apply U]. rewrite <- bell_int_0.
      destruct (MVT_cor2 bell_int bell 0 1 Rlt_0_1 (fun z _ => bell_int_deriv z)) as (z & E & _). pose proof (exp_pos (- (z * z) / 2)).
      unfold bell in E. lra. }
    exists (fun x => (bell_int x + c) / (2 * c)). split; [split; [|split; [|split]]|].
    + intros x. pose proof (U x). pose proof (L x). split.
      * apply Rmult_le_pos; [lra | left; apply Rinv_0_lt_compat; lra].
      * apply (Rmult_le_reg_r (2 * c)); [lra|]. unfold Rdiv. rewrite Rmult_assoc, Rinv_l by lra. lra.
    + intros x y H. apply Rmult_le_compat_r; [left; apply Rinv_0_lt_compat; lra|]. pose proof (bell_int_mono x y H). lra.
    + intros e He. destruct (A (e * (2 * c))) as [x Hx]; [apply Rmult_lt_0_compat; lra|]. exists (- x). rewrite bell_int_odd.
      apply (Rmult_lt_reg_r (2 * c)); [lra|]. unfold Rdiv. rewrite Rmult_assoc, Rinv_l by lra. lra.
    + intros e He. destruct (A (e * (2 * c))) as [x Hx]; [apply Rmult_lt_0_compat; lra|]. exists x.
      apply (Rmult_lt_reg_r (2 * c)); [lra|]. unfold Rdiv. rewrite Rmult_assoc, Rinv_l by lra. lra.
    + exists (/ (2 * c)). split; [apply Rinv_0_lt_compat; lra|]. intros x.
      replace (/ (2 * c) * exp (- (x * x) / 2)) with ((bell x + 0) * / (2 * c) + (bell_int x + c) * 0) by (unfold bell; ring).
      apply (derivable_pt_lim_mult (fun x => bell_int x + c) (fun _ => / (2 * c))); [|apply derivable_pt_lim_const].
      apply derivable_pt_lim_plus; [apply bell_int_deriv | apply derivable_pt_lim_const].
Qed.
