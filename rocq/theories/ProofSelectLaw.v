(** Number of runs: the generating functions of the Poisson and truncated negative binomial
    distributions, and their means. *)
From Verif Require Import Base XReal SpecDP SpecRdp SpecSelect ProofDP ProofShape ProofRenyi ProofObserve ProofSelect ProofSelectRdp.
Local Arguments Rltb : simpl never.
Local Arguments Rleb : simpl never.
Local Arguments Reqb : simpl never.

Lemma infsum_shift u l : infinite_sum u l -> infinite_sum (fun k => match k with O => 0 | S k => u k end) l.
Proof.
  intros H e He. destruct (H e He) as [N A]. exists (S N). intros n Hn. destruct n as [|n]; [lia|]. specialize (A n ltac:(lia)).
  replace (sum_f_R0 (fun k => match k with O => 0 | S k => u k end) (S n)) with (sum_f_R0 u n); [exact A|].
  clear. induction n as [|n IH]; [cbn; lra|]. cbn [sum_f_R0] in *. rewrite IH. ring.
Qed.
Lemma infsum_drop u l : infinite_sum u l -> infinite_sum (fun k => match k with O => 0 | S _ => u k end) (l - u 0%nat).
Proof.
  intros H e He. destruct (H e He) as [N A]. exists N. intros n Hn. specialize (A n Hn). unfold R_dist in *.
  replace (sum_f_R0 (fun k => match k with O => 0 | S _ => u k end) n - (l - u 0%nat)) with (sum_f_R0 u n - l); [exact A|].
  enough (sum_f_R0 u n = sum_f_R0 (fun k => match k with O => 0 | S _ => u k end) n + u 0%nat) by lra.
  clear. induction n as [|n IH]; [cbn; lra|]. cbn [sum_f_R0] in *. rewrite IH. ring.
Qed.
(** The partial sums stay within a null sequence of the limit. *)
Lemma infsum_null u l d : (forall n, Rabs (sum_f_R0 u n - l) <= d n) -> Un_cv d 0 -> infinite_sum u l.
Proof.
  intros H D e He. destruct (D e He) as [N A]. exists N. intros n Hn. specialize (A n Hn). unfold R_dist in *. rewrite Rminus_0_r in A.
  eapply Rle_lt_trans; [apply H|]. eapply Rle_lt_trans; [apply Rle_abs | exact A].
Qed.
Lemma pow_null y : 0 <= y < 1 -> Un_cv (fun n => y ^ n) 0.
Proof.
  intros H e He. destruct (pow_lt_1_zero y ltac:(rewrite Rabs_pos_eq; lra) e He) as [N A]. exists N. intros n Hn. unfold R_dist. rewrite Rminus_0_r. apply A, Hn.
Qed.
Lemma null_scal c d : Un_cv d 0 -> Un_cv (fun n => c * d n) 0.
Proof. intros H. rewrite <- (Rmult_0_r c). apply CV_mult; [|exact H]. intros e He. exists 0%nat. intros n _. unfold R_dist. rewrite Rminus_diag_eq, Rabs_R0; [assumption | reflexivity]. Qed.
Lemma ratio_null d rho N : 0 <= rho < 1 -> (forall n, 0 <= d n) -> (forall n, (N <= n)%nat -> d (S n) <= rho * d n) -> Un_cv d 0.
Proof.
  intros Hr P H.
  assert (B : forall k, d (N + k)%nat <= d N * rho ^ k).
  { induction k as [|k IH]; [rewrite Nat.add_0_r; cbn; lra|]. rewrite Nat.add_succ_r. eapply Rle_trans; [apply H; lia|]. cbn [pow].
    replace (d N * (rho * rho ^ k)) with (rho * (d N * rho ^ k)) by ring. apply Rmult_le_compat_l; [lra | exact IH]. }
  intros e He. destruct (null_scal (d N) _ (pow_null rho Hr) e He) as [M A]. exists (N + M)%nat. intros n Hn.
  specialize (A (n - N)%nat ltac:(lia)). specialize (B (n - N)%nat). replace (N + (n - N))%nat with n in B by lia.
  unfold R_dist in *. rewrite Rminus_0_r in *. rewrite Rabs_pos_eq by apply P. eapply Rle_lt_trans; [exact B|]. eapply Rle_lt_trans; [apply Rle_abs | exact A].
Qed.

(** ** Poisson *)
Lemma poisson_pgf mu x : infinite_sum (fun k => poisson_runs mu k * x ^ k) (exp (mu * (x - 1))).
Proof.
  replace (exp (mu * (x - 1))) with (exp (- mu) * exp (mu * x)) by (rewrite <- exp_plus; f_equal; ring).
  assert (H : infinite_sum (fun i => / INR (fact i) * (mu * x) ^ i) (exp (mu * x))) by (unfold exp; destruct (exist_exp (mu * x)) as [l Hl]; exact Hl).
  eapply infsum_ext; [|apply infsum_scal, H]. intros k. unfold poisson_runs. cbn beta. rewrite Rpow_mult_distr. unfold Rdiv. ring.
Qed.
Lemma poisson_mean mu : infinite_sum (fun k => INR k * poisson_runs mu k) mu.
Proof.
  assert (H := infsum_scal mu _ _ (poisson_pgf mu 1)). rewrite Rminus_diag_eq, Rmult_0_r, exp_0, Rmult_1_r in H by reflexivity.
  apply infsum_shift in H. eapply infsum_ext; [|exact H]. intros [|k]; [cbn [INR]; ring|]. unfold poisson_runs. rewrite pow1, fact_simpl, mult_INR.
  cbn [pow]. pose proof (INR_fact_neq_0 k). assert (INR (S k) <> 0) by (apply not_0_INR; discriminate). field. split; assumption.
Qed.

(** ** The negative binomial series *)
Lemma rising_pos s k : 0 <= s -> 0 <= rising s k.
Proof.
  intros Hs. induction k as [|k IH]; [cbn; lra|]. cbn [rising]. pose proof (pos_INR k). apply Rmult_le_pos; [exact IH|].
  apply Rmult_le_pos; [lra | left; apply Rinv_0_lt_compat; lra].
Qed.
Definition part (s : R) (n : nat) (y : R) : R := sum_f_R0 (fun k => rising s k * y ^ k) n.
Definition part' (s : R) (n : nat) (y : R) : R := sum_f_R0 (fun k => INR k * rising s k * y ^ (k - 1)) n.
Lemma pow_deriv y k : derivable_pt_lim (fun y => y ^ k) y (INR k * y ^ (k - 1)).
Proof. rewrite Nat.sub_1_r. apply derivable_pt_lim_pow. Qed.
Lemma part_deriv s n y : derivable_pt_lim (part s n) y (part' s n y).
Proof.
  unfold part, part'. induction n as [|n IH].
  - cbn [sum_f_R0 INR rising]. rewrite !Rmult_0_l. intros e He. exists (mkposreal 1 Rlt_0_1). intros h Hh _. cbn [pow].
    replace ((1 * 1 - 1 * 1) / h - 0) with 0 by (field; assumption). rewrite Rabs_R0. assumption.
  - cbn [sum_f_R0]. apply (derivable_pt_lim_plus (fun y => sum_f_R0 (fun k => rising s k * y ^ k) n) (fun y => rising s (S n) * y ^ S n)); [exact IH|].
    replace (INR (S n) * rising s (S n) * y ^ (S n - 1)) with (rising s (S n) * (INR (S n) * y ^ (S n - 1))) by ring.
    apply (derivable_pt_lim_scal (fun y => y ^ S n)). apply pow_deriv.
Qed.
Lemma rising_step s k : INR (S k) * rising s (S k) = (INR k + s) * rising s k.
Proof. cbn [rising]. rewrite S_INR. pose proof (pos_INR k). field. lra. Qed.
Lemma part_ode s n y : (1 - y) * part' s n y - s * part s n y = - ((INR n + s) * rising s n * y ^ n).
Proof.
  unfold part, part'. induction n as [|n IH]; [cbn; ring|]. cbn [sum_f_R0].
  rewrite !Rmult_plus_distr_l. pose proof (rising_step s n) as S1.
  replace (S n - 1)%nat with n by lia.
  assert (X : INR (S n) * rising s (S n) * y ^ n = (INR n + s) * rising s n * y ^ n) by (rewrite S1; ring).
  replace ((1 - y) * (INR (S n) * rising s (S n) * y ^ n)) with (INR (S n) * rising s (S n) * y ^ n - INR (S n) * rising s (S n) * y ^ S n) by (cbn [pow]; ring).
  rewrite X. replace ((INR (S n) + s) * rising s (S n) * y ^ S n) with (INR (S n) * rising s (S n) * y ^ S n + s * (rising s (S n) * y ^ S n)) by ring. lra.
Qed.
Lemma base_deriv s y : y < 1 -> derivable_pt_lim (fun y => Rpower (1 - y) s) y (- (s * Rpower (1 - y) (s - 1))).
Proof.
  intros H. replace (- (s * Rpower (1 - y) (s - 1))) with ((s * Rpower (1 - y) (s - 1)) * (0 - 1)) by ring.
  apply (derivable_pt_lim_comp (fun y => 1 - y) (fun x => Rpower x s)).
  - apply (derivable_pt_lim_minus (fun _ => 1) (fun y => y)); [apply derivable_pt_lim_const | apply derivable_pt_lim_id].
  - apply derivable_pt_lim_power. lra.
Qed.
Lemma binomial_remainder s n y : 0 <= s -> 0 <= y < 1 ->
  0 <= 1 - Rpower (1 - y) s * part s n y <= y / (1 - y) * ((INR n + s) * rising s n * y ^ n).
Proof.
  intros Hs Hy. set (g := fun v => Rpower (1 - v) s * part s n v).
  set (g' := fun v => - (Rpower (1 - v) (s - 1) * ((INR n + s) * rising s n * v ^ n))).
  assert (D : forall v, 0 <= v <= y -> derivable_pt_lim g v (g' v)).
  { intros v Hv. replace (g' v) with (- (s * Rpower (1 - v) (s - 1)) * part s n v + Rpower (1 - v) s * part' s n v).
    - apply (derivable_pt_lim_mult (fun v => Rpower (1 - v) s) (part s n)); [apply base_deriv; lra | apply part_deriv].
    - unfold g'. rewrite (Rpower_m1 (1 - v) s) by lra. pose proof (part_ode s n v) as O.
      replace (- (Rpower (1 - v) (s - 1) * ((INR n + s) * rising s n * v ^ n))) with (Rpower (1 - v) (s - 1) * (- ((INR n + s) * rising s n * v ^ n))) by ring.
      rewrite <- O. ring. }
  assert (G0 : g 0 = 1).
  { unfold g, part. rewrite Rminus_0_r. unfold Rpower. rewrite ln_1, Rmult_0_r, exp_0, Rmult_1_l. clear. induction n as [|n IH]; [cbn; lra|].
    cbn [sum_f_R0]. rewrite IH, pow_ne_zero by discriminate. ring. }
  pose proof (rising_pos s n Hs) as R0. pose proof (pos_INR n) as N0.
  assert (C0 : 0 <= (INR n + s) * rising s n) by (apply Rmult_le_pos; lra).
  fold (g y). split.
  - enough (g y <= g 0) by lra. enough (- g 0 <= - g y) by lra. apply (mono_on (fun v => - g v) (fun v => - g' v)); [lra|]. intros v Hv. split.
    + apply (derivable_pt_lim_opp g), D, Hv.
    + unfold g'. rewrite Ropp_involutive. apply Rmult_le_pos; [left; apply Rpower_pos|]. apply Rmult_le_pos; [exact C0 | apply pow_le; lra].
  - set (b := / (1 - y) * ((INR n + s) * rising s n * y ^ n)).
    enough (X : g 0 + 0 * b <= g y + y * b) by (unfold b in X; unfold Rdiv; lra).
    apply (mono_on (fun v => g v + v * b) (fun v => g' v + b)); [lra|]. intros v Hv. split.
    + apply (derivable_pt_lim_plus g (fun v => v * b)); [apply D, Hv | apply lin_deriv].
    + unfold g'. enough (Rpower (1 - v) (s - 1) * ((INR n + s) * rising s n * v ^ n) <= b) by lra. unfold b.
      apply Rmult_le_compat; [left; apply Rpower_pos | apply Rmult_le_pos; [exact C0 | apply pow_le; lra] | |].
      * apply Rle_trans with (/ (1 - v)); [|apply Rinv_le_contravar; lra].
        apply (Rmult_le_reg_r (1 - v)); [lra|]. rewrite <- Rpower_m1, Rinv_l by lra.
        unfold Rpower. apply Rle_trans with (exp 0); [|rewrite exp_0; lra]. apply exp_le. assert (ln (1 - v) <= ln 1) by (apply ln_le_mono; lra). rewrite ln_1 in *. nra.
      * apply Rmult_le_compat_l; [exact C0|]. apply pow_incr. lra.
Qed.
Lemma nat_above x : exists n, x < INR n.
Proof.
  exists (Z.to_nat (up x)). destruct (archimed x) as [H _]. eapply Rlt_le_trans; [exact H|]. rewrite INR_IZR_INZ. apply IZR_le. lia.
Qed.
Lemma remainder_null s y : 0 <= s -> 0 <= y < 1 -> Un_cv (fun n => (INR n + s) * rising s n * y ^ n) 0.
Proof.
  intros Hs Hy. set (rho := (1 + y) / 2).
  destruct (nat_above (2 * s / (1 - y) + 1)) as [N HN].
  apply (ratio_null _ rho N).
  - unfold rho. lra.
  - intros n. pose proof (pos_INR n). apply Rmult_le_pos; [|apply pow_le; lra]. apply Rmult_le_pos; [lra | apply rising_pos, Hs].
  - intros n Hn. pose proof (rising_step s n) as S1. pose proof (pos_INR n) as N0. rewrite S_INR in *.
    assert (HI : 2 * s / (1 - y) <= INR n) by (apply le_INR in Hn; lra).
    assert (HI2 : 2 * s <= INR n * (1 - y)).
    { apply (Rmult_le_compat_r (1 - y)) in HI; [|lra]. replace (2 * s / (1 - y) * (1 - y)) with (2 * s) in HI by (field; lra). exact HI. }
    assert (X : (INR n + 1 + s) * rising s (S n) = (INR n + s) * rising s n * ((INR n + 1 + s) / (INR n + 1))).
    { rewrite <- S1. field. lra. }
    rewrite X. cbn [pow]. replace ((INR n + s) * rising s n * ((INR n + 1 + s) / (INR n + 1)) * (y * y ^ n)) with (((INR n + 1 + s) / (INR n + 1) * y) * ((INR n + s) * rising s n * y ^ n)) by ring.
    apply Rmult_le_compat_r; [apply Rmult_le_pos; [|apply pow_le; lra]; apply Rmult_le_pos; [lra | apply rising_pos, Hs]|].
    unfold rho. apply (Rmult_le_reg_r (INR n + 1)); [lra|]. replace ((INR n + 1 + s) / (INR n + 1) * y * (INR n + 1)) with ((INR n + 1 + s) * y) by (field; lra). nra.
Qed.
Lemma binomial_series s y : 0 <= s -> 0 <= y < 1 -> infinite_sum (fun k => rising s k * y ^ k) (Rpower (1 - y) (- s)).
Proof.
  intros Hs Hy. set (W := Rpower (1 - y) (- s)).
  apply (infsum_null _ _ (fun n => W * (y / (1 - y)) * ((INR n + s) * rising s n * y ^ n))).
  - intros n. fold (part s n y). pose proof (binomial_remainder s n y Hs Hy) as B. set (w := Rpower (1 - y) s) in *.
    assert (Ww : W * w = 1) by (unfold W, w; rewrite <- Rpower_plus, Rplus_opp_l; apply Rpower_O; lra).
    assert (W0 : 0 < W) by apply Rpower_pos.
    replace (part s n y - W) with (- (W * (1 - w * part s n y))) by (replace (W * (1 - w * part s n y)) with (W - (W * w) * part s n y) by ring; rewrite Ww; ring).
    rewrite Rabs_Ropp, Rabs_mult, !Rabs_pos_eq by lra. rewrite Rmult_assoc. apply Rmult_le_compat_l; lra.
  - apply null_scal, remainder_null; assumption.
Qed.
Lemma log_series y : 0 <= y < 1 -> infinite_sum (fun k => match k with O => 0 | S _ => y ^ k / INR k end) (- ln (1 - y)).
Proof.
  intros Hy. apply (infsum_null _ _ (fun n => y / (1 - y) * y ^ n)); [|apply null_scal, pow_null, Hy].
  intros n. set (S := fun v => sum_f_R0 (fun k => match k with O => 0 | S _ => v ^ k / INR k end) n).
  assert (DS : forall v, v <> 1 -> derivable_pt_lim S v ((1 - v ^ n) / (1 - v))).
  { intros v Hv. unfold S. clear S. induction n as [|n IH].
    - cbn [sum_f_R0 pow]. replace ((1 - 1) / (1 - v)) with 0 by (field; lra). apply derivable_pt_lim_const.
    - cbn [sum_f_R0]. replace ((1 - v ^ Datatypes.S n) / (1 - v)) with ((1 - v ^ n) / (1 - v) + v ^ n) by (cbn [pow]; field; lra).
      apply (derivable_pt_lim_plus (fun v => sum_f_R0 (fun k => match k with O => 0 | Datatypes.S _ => v ^ k / INR k end) n) (fun v => v ^ Datatypes.S n / INR (Datatypes.S n))); [exact IH|].
      pose proof (pow_deriv v (Datatypes.S n)) as D. replace (Datatypes.S n - 1)%nat with n in D by lia.
      apply (derivable_pt_lim_scal _ (/ INR (Datatypes.S n))) in D.
      replace (/ INR (Datatypes.S n) * (INR (Datatypes.S n) * v ^ n)) with (v ^ n) in D by (field; apply not_0_INR; discriminate).
      intros e He. destruct (D e He) as [dl A]. exists dl. intros h H1 H2. specialize (A h H1 H2). unfold mult_real_fct, Rdiv in *.
      rewrite (Rmult_comm ((v + h) ^ _)), (Rmult_comm (v ^ Datatypes.S n)). exact A. }
  assert (DL : forall v, v < 1 -> derivable_pt_lim (fun v => - ln (1 - v)) v (/ (1 - v))).
  { intros v Hv. replace (/ (1 - v)) with (- (/ (1 - v) * (0 - 1))) by (field; lra).
    apply (derivable_pt_lim_opp (fun v => ln (1 - v))). apply (derivable_pt_lim_comp (fun v => 1 - v) ln).
    - apply (derivable_pt_lim_minus (fun _ => 1) (fun v => v)); [apply derivable_pt_lim_const | apply derivable_pt_lim_id].
    - apply derivable_pt_lim_ln. lra. }
  set (g := fun v => - ln (1 - v) - S v).
  assert (Dg : forall v, 0 <= v <= y -> derivable_pt_lim g v (v ^ n / (1 - v))).
  { intros v Hv. replace (v ^ n / (1 - v)) with (/ (1 - v) - (1 - v ^ n) / (1 - v)) by (field; lra).
    apply (derivable_pt_lim_minus (fun v => - ln (1 - v)) S); [apply DL; lra | apply DS; lra]. }
  assert (G0 : g 0 = 0).
  { unfold g, S. rewrite Rminus_0_r, ln_1. clear. induction n as [|n IH]; [cbn; lra|]. cbn [sum_f_R0]. rewrite pow_ne_zero by discriminate. unfold Rdiv. lra. }
  assert (L1 : g 0 <= g y).
  { apply (mono_on g (fun v => v ^ n / (1 - v))); [lra|]. intros v Hv. split; [apply Dg, Hv|]. apply Rmult_le_pos; [apply pow_le; lra | left; apply Rinv_0_lt_compat; lra]. }
  set (b := y ^ n / (1 - y)).
  assert (L2 : 0 * b - g 0 <= y * b - g y).
  { apply (mono_on (fun v => v * b - g v) (fun v => b - v ^ n / (1 - v))); [lra|]. intros v Hv. split.
    - apply (derivable_pt_lim_minus (fun v => v * b) g); [apply lin_deriv | apply Dg, Hv].
    - enough (v ^ n / (1 - v) <= b) by lra. unfold b. apply Rmult_le_compat; [apply pow_le; lra | left; apply Rinv_0_lt_compat; lra | apply pow_incr; lra | apply Rinv_le_contravar; lra]. }
  fold (S y). replace (S y - - ln (1 - y)) with (- g y) by (unfold g; ring). rewrite Rabs_Ropp, Rabs_pos_eq by lra.
  replace (y / (1 - y) * y ^ n) with (y * b) by (unfold b; field; lra). lra.
Qed.

(** ** The truncated negative binomial distribution *)
Definition tnb_f (s g x : R) : R :=
  if Reqb g 1 then x
  else if Reqb s 0 then ln (1 - (1 - g) * x) / ln g
  else (Rpower (1 - (1 - g) * x) (- s) - 1) / (Rpower g (- s) - 1).
Definition tnb_m (s g : R) : R := if Reqb g 1 then 1 else tnb_true_mean g s.
Definition tnb_f' (s g x : R) : R := tnb_m s g * Rpower ((1 - (1 - g) * x) / g) (- (s + 1)).

Section Tnb.
  Context (s g : R) (Hs : 0 <= s) (Hg : 0 < g <= 1).
  Lemma g_lt : g <> 1 -> 0 < g < 1. Proof. lra. Qed.
  Lemma lng : g <> 1 -> ln g < 0.
  Proof. intros H. rewrite <- ln_1. apply ln_increasing; lra. Qed.
  Lemma gs_big : g <> 1 -> s <> 0 -> 1 < Rpower g (- s).
  Proof. intros H Ns. unfold Rpower. rewrite <- exp_0. apply exp_increasing. pose proof (lng H). nra. Qed.
  Lemma tnb_pgf x : 0 <= x <= 1 -> infinite_sum (fun k => tnb_runs s g k * x ^ k) (tnb_f s g x).
  Proof.
    intros Hx. unfold tnb_runs, tnb_f. destruct (Reqb_spec g 1) as [G1|G1].
    - apply (infsum_null _ _ (fun n => match n with O => Rabs x | S _ => 0 end)).
      + intros [|n]; [cbn; rewrite Rmult_0_l, Rminus_0_l, Rabs_Ropp; lra|].
        replace (sum_f_R0 _ (S n)) with x; [rewrite Rminus_diag_eq, Rabs_R0 by reflexivity; lra|].
        induction n as [|n IH]; [cbn; lra|]. cbn [sum_f_R0] in *. rewrite <- IH. cbn [Nat.eqb]. ring.
      + intros e He. exists 1%nat. intros [|n] Hn; [lia|]. unfold R_dist. rewrite Rminus_0_r, Rabs_R0. assumption.
    - pose proof (lng G1) as Lg. assert (Y : 0 <= (1 - g) * x < 1) by (assert ((1 - g) * x <= (1 - g) * 1) by (apply Rmult_le_compat_l; lra); assert (0 <= (1 - g) * x) by (apply Rmult_le_pos; lra); lra).
      destruct (Reqb_spec s 0) as [S0|S0].
      + assert (H := infsum_scal (/ ln (1 / g)) _ _ (log_series _ Y)).
        replace (ln (1 / g)) with (- ln g) in * by (unfold Rdiv; rewrite Rmult_1_l, ln_Rinv by lra; reflexivity).
        replace (ln (1 - (1 - g) * x) / ln g) with (/ - ln g * - ln (1 - (1 - g) * x)) by (field; lra).
        eapply infsum_ext; [|exact H]. intros [|k]; cbn [Nat.eqb]; [ring|]. rewrite Rpow_mult_distr. field.
        split; [lra | apply not_0_INR; discriminate].
      + pose proof (gs_big G1 S0) as Gb. assert (H := infsum_scal (/ (Rpower g (- s) - 1)) _ _ (infsum_drop _ _ (binomial_series s _ Hs Y))).
        cbn [rising pow] in H. rewrite Rmult_1_r in H. replace ((Rpower (1 - (1 - g) * x) (- s) - 1) / (Rpower g (- s) - 1)) with (/ (Rpower g (- s) - 1) * (Rpower (1 - (1 - g) * x) (- s) - 1)) by (field; lra).
        eapply infsum_ext; [|exact H]. intros [|k]; cbn [Nat.eqb]; [ring|]. rewrite Rpow_mult_distr. unfold Rdiv. ring.
  Qed.
  Lemma tnb_f0 : tnb_f s g 0 = 0.
  Proof.
    unfold tnb_f. destruct (Reqb g 1); [reflexivity|]. rewrite Rmult_0_r, Rminus_0_r. destruct (Reqb s 0).
    - rewrite ln_1. unfold Rdiv. ring.
    - unfold Rpower at 1. rewrite ln_1, Rmult_0_r, exp_0. unfold Rdiv. ring.
  Qed.
  Lemma tnb_f1 : tnb_f s g 1 = 1.
  Proof.
    unfold tnb_f. destruct (Reqb_spec g 1) as [|G1]; [reflexivity|]. replace (1 - (1 - g) * 1) with g by ring. pose proof (lng G1). destruct (Reqb_spec s 0) as [|S0].
    - field. lra.
    - pose proof (gs_big G1 S0). field. lra.
  Qed.
  Lemma tnb_m_pos : 1 <= tnb_m s g \/ 0 < tnb_m s g.
  Proof.
    unfold tnb_m, tnb_true_mean. destruct (Reqb_spec g 1) as [|G1]; [left; lra | right]. pose proof (lng G1).
    assert (0 < 1 / g - 1). { unfold Rdiv. rewrite Rmult_1_l. enough (/ 1 < / g) by (rewrite Rinv_1 in *; lra). apply Rinv_lt_contravar; lra. }
    destruct (Reqb_spec s 0) as [S0|S0].
    - apply Rdiv_lt_0_compat; [assumption|]. unfold Rdiv. rewrite Rmult_1_l, ln_Rinv by lra. lra.
    - apply Rdiv_lt_0_compat; [apply Rmult_lt_0_compat; lra|]. enough (Rpower g s < 1) by lra. unfold Rpower. rewrite <- exp_0. apply exp_increasing. nra.
  Qed.
  Lemma tnb_mean_pos : 0 < tnb_m s g.
  Proof. destruct tnb_m_pos; lra. Qed.
  Lemma in_range x : 0 <= x <= 1 -> g <= 1 - (1 - g) * x <= 1.
  Proof. intros H. assert ((1 - g) * x <= (1 - g) * 1) by (apply Rmult_le_compat_l; lra). assert (0 <= (1 - g) * x) by (apply Rmult_le_pos; lra). lra. Qed.
  Lemma tnb_f'_pos x : 0 <= x <= 1 -> 0 < tnb_f' s g x.
  Proof. intros H. apply Rmult_lt_0_compat; [apply tnb_mean_pos | apply Rpower_pos]. Qed.
  Lemma tnb_f'_le x : 0 <= x <= 1 -> tnb_f' s g x <= tnb_m s g.
  Proof.
    intros H. rewrite <- (Rmult_1_r (tnb_m s g)). apply Rmult_le_compat_l; [left; apply tnb_mean_pos|]. unfold Rpower. apply Rle_trans with (exp 0); [|rewrite exp_0; lra]. apply exp_le.
    pose proof (in_range x H). assert (ln 1 <= ln ((1 - (1 - g) * x) / g)); [|rewrite ln_1 in *; nra]. apply ln_le_mono; [lra|].
    apply (Rmult_le_reg_r g); [lra|]. unfold Rdiv. rewrite Rmult_assoc, Rinv_l by lra. lra.
  Qed.
  Lemma tnb_inner x : derivable_pt_lim (fun x => 1 - (1 - g) * x) x (- (1 - g)).
  Proof.
    replace (- (1 - g)) with (0 - (1 - g) * 1) by ring. apply (derivable_pt_lim_minus (fun _ => 1) (fun x => (1 - g) * x)); [apply derivable_pt_lim_const|].
    apply (derivable_pt_lim_scal (fun x => x)), derivable_pt_lim_id.
  Qed.
  Lemma tnb_deriv x : 0 <= x <= 1 -> derivable_pt_lim (tnb_f s g) x (tnb_f' s g x).
  Proof.
    intros H. pose proof (in_range x H) as IR. unfold tnb_f', tnb_m. unfold tnb_f. destruct (Reqb_spec g 1) as [G1|G1].
    - rewrite G1. replace (1 - (1 - 1) * x) with 1 by ring. unfold Rdiv. rewrite Rinv_1, Rmult_1_l, Rmult_1_l. unfold Rpower. rewrite ln_1, Rmult_0_r, exp_0. apply derivable_pt_lim_id.
    - pose proof (lng G1) as Lg. unfold tnb_true_mean. destruct (Reqb_spec s 0) as [S0|S0].
      + assert (D : derivable_pt_lim (fun x => / ln g * ln (1 - (1 - g) * x)) x (/ ln g * (/ (1 - (1 - g) * x) * - (1 - g)))).
        { apply (derivable_pt_lim_scal (fun x => ln (1 - (1 - g) * x))). apply (derivable_pt_lim_comp (fun x => 1 - (1 - g) * x) ln); [apply tnb_inner | apply derivable_pt_lim_ln; lra]. }
        replace ((1 / g - 1) / ln (1 / g) * Rpower ((1 - (1 - g) * x) / g) (- (s + 1))) with (/ ln g * (/ (1 - (1 - g) * x) * - (1 - g))).
        * intros e He. destruct (D e He) as [dl A]. exists dl. intros h H1 H2. specialize (A h H1 H2). unfold Rdiv in *. rewrite !(Rmult_comm _ (/ ln g)). exact A.
        * rewrite S0. replace (- (0 + 1)) with (- (1)) by ring. rewrite Rpower_Ropp, Rpower_1 by (apply Rdiv_lt_0_compat; lra).
          replace (ln (1 / g)) with (- ln g) by (unfold Rdiv; rewrite Rmult_1_l, ln_Rinv by lra; reflexivity). field. lra.
      + pose proof (gs_big G1 S0) as Gb. set (w := 1 - (1 - g) * x) in *.
        assert (D : derivable_pt_lim (fun x => / (Rpower g (- s) - 1) * (Rpower (1 - (1 - g) * x) (- s) - 1)) x (/ (Rpower g (- s) - 1) * ((- s * Rpower w (- s - 1)) * - (1 - g) - 0))).
        { apply (derivable_pt_lim_scal (fun x => Rpower (1 - (1 - g) * x) (- s) - 1)).
          apply (derivable_pt_lim_minus (fun x => Rpower (1 - (1 - g) * x) (- s)) (fun _ => 1)); [|apply derivable_pt_lim_const].
          apply (derivable_pt_lim_comp (fun x => 1 - (1 - g) * x) (fun w => Rpower w (- s))); [apply tnb_inner | apply derivable_pt_lim_power; fold w; lra]. }
        replace (s * (1 / g - 1) / (1 - Rpower g s) * Rpower (w / g) (- (s + 1))) with (/ (Rpower g (- s) - 1) * ((- s * Rpower w (- s - 1)) * - (1 - g) - 0)).
        * intros e He. destruct (D e He) as [dl A]. exists dl. intros h H1 H2. specialize (A h H1 H2). unfold Rdiv in *. rewrite !(Rmult_comm _ (/ (Rpower g (- s) - 1))). exact A.
        * assert (P1 : Rpower (w / g) (- (s + 1)) = Rpower w (- s - 1) * (Rpower g s * g)).
          { unfold Rpower. rewrite ln_div by lra. replace g with (exp (ln g)) at 3 by (apply exp_ln; lra). rewrite <- !exp_plus. f_equal. ring. }
          assert (P2 : Rpower g (- s) = / Rpower g s) by apply Rpower_Ropp.
          assert (P3 : 0 < Rpower g s) by apply Rpower_pos. assert (P4 : Rpower g s <> 1) by (intros X; rewrite P2, X, Rinv_1 in Gb; lra).
          rewrite P1, P2. field. split; [|split]; lra.
  Qed.
  Lemma tnb_law_mean : infinite_sum (fun k => INR k * tnb_runs s g k) (tnb_m s g).
  Proof.
    unfold tnb_runs, tnb_m. destruct (Reqb_spec g 1) as [G1|G1].
    - apply (infsum_null _ _ (fun n => match n with O => 1 | S _ => 0 end)).
      + intros [|n]; [cbn; rewrite Rmult_0_l, Rminus_0_l, Rabs_Ropp, Rabs_R1; lra|].
        replace (sum_f_R0 _ (S n)) with 1; [rewrite Rminus_diag_eq, Rabs_R0 by reflexivity; lra|].
        induction n as [|n IH]; [cbn; lra|]. cbn [sum_f_R0] in *. rewrite <- IH. cbn [Nat.eqb]. ring.
      + intros e He. exists 1%nat. intros [|n] Hn; [lia|]. unfold R_dist. rewrite Rminus_0_r, Rabs_R0. assumption.
    - pose proof (lng G1) as Lg. unfold tnb_true_mean. replace (ln (1 / g)) with (- ln g) by (unfold Rdiv; rewrite Rmult_1_l, ln_Rinv by lra; reflexivity).
      assert (Y : 0 <= 1 - g < 1) by lra. destruct (Reqb_spec s 0) as [S0|S0].
      + assert (H := infsum_shift _ _ (infsum_scal ((1 - g) / - ln g) _ _ (binomial_series 1 _ ltac:(lra) Y))).
        replace (1 - (1 - g)) with g in H by ring. rewrite Rpower_Ropp, Rpower_1 in H by lra.
        replace ((1 / g - 1) / - ln g) with ((1 - g) / - ln g * / g) by (field; lra).
        eapply infsum_ext; [|exact H]. intros [|k]; [cbn; ring|]. cbn [Nat.eqb]. replace (rising 1 k) with 1.
        * cbn [pow]. field. split; [lra | apply not_0_INR; discriminate].
        * clear. induction k as [|k IH]; [reflexivity|]. cbn [rising]. rewrite <- IH. pose proof (pos_INR k). field. lra.
      + pose proof (gs_big G1 S0) as Gb.
        assert (H := infsum_shift _ _ (infsum_scal (s * (1 - g) / (Rpower g (- s) - 1)) _ _ (binomial_series (s + 1) _ ltac:(lra) Y))).
        replace (1 - (1 - g)) with g in H by ring.
        replace (s * (1 / g - 1) / (1 - Rpower g s)) with (s * (1 - g) / (Rpower g (- s) - 1) * Rpower g (- (s + 1))).
        * eapply infsum_ext; [|exact H]. intros [|k]; [cbn; ring|]. cbn [Nat.eqb].
          assert (X : INR (S k) * rising s (S k) = s * rising (s + 1) k).
          { rewrite rising_step. clear. induction k as [|k IH]; [cbn; ring|]. cbn [rising]. pose proof (pos_INR k). rewrite S_INR.
            replace ((INR k + 1 + s) * (rising s k * ((INR k + s) / (INR k + 1)))) with (((INR k + s) * rising s k) * ((INR k + (s + 1)) / (INR k + 1))) by (field; lra).
            rewrite IH. ring. }
          cbn [pow]. unfold Rdiv. transitivity ((INR (S k) * rising s (S k)) * ((1 - g) * (1 - g) ^ k * / (Rpower g (- s) - 1))); [rewrite X; ring | ring].
        * assert (P1 : Rpower g (- (s + 1)) = / Rpower g s * / g) by (rewrite Rpower_Ropp, Rpower_plus, Rpower_1 by lra; apply Rinv_mult).
          assert (P2 : Rpower g (- s) = / Rpower g s) by apply Rpower_Ropp.
          assert (P3 : 0 < Rpower g s) by apply Rpower_pos. assert (P4 : Rpower g s <> 1) by (intros X; rewrite P2, X, Rinv_1 in Gb; lra).
          rewrite P1, P2. field. split; [|split]; lra.
  Qed.
End Tnb.

(** The mean decreases with the success probability. *)
Lemma weighted_mean y t : 0 < y -> 0 <= t <= 1 -> t * ln y <= ln (t * y + (1 - t)).
Proof.
  intros Hy Ht. assert (P : 0 < t * y + (1 - t)) by (destruct (Req_dec t 1) as [->|]; [lra|]; assert (0 <= t * y) by (apply Rmult_le_pos; lra); lra).
  apply exp_le_inv2. rewrite exp_ln by exact P. pose proof (exp_convex t (ln y) 0 Ht) as H. rewrite Rmult_0_r, Rplus_0_r, exp_0, exp_ln in H by exact Hy. lra.
Qed.
Lemma true_mean_slope g s : 0 < g < 1 -> 0 <= s ->
  tnb_true_mean g s = (1 / g - 1) / (if Reqb s 0 then ln (1 / g) else (1 - Rpower (1 / g) (- s)) / s).
Proof.
  intros Hg Hs. unfold tnb_true_mean. destruct (Reqb_spec s 0) as [S0|S0]; [reflexivity|].
  assert (E : Rpower (1 / g) (- s) = Rpower g s) by (unfold Rpower; f_equal; unfold Rdiv; rewrite Rmult_1_l, ln_Rinv by lra; ring).
  assert (Rpower g s < 1). { unfold Rpower. rewrite <- exp_0. apply exp_increasing. assert (ln g < 0) by (rewrite <- ln_1; apply ln_increasing; lra). nra. }
  rewrite E. field. repeat split; lra.
Qed.
Lemma true_mean_anti g g' s : 0 <= s -> 0 < g -> g <= g' -> g' < 1 -> tnb_true_mean g' s <= tnb_true_mean g s.
Proof.
  intros Hs Hg L Hg'. rewrite !true_mean_slope by lra. set (y := 1 / g). set (y' := 1 / g').
  assert (Y' : 1 < y'). { unfold y', Rdiv. rewrite Rmult_1_l, <- Rinv_1. apply Rinv_lt_contravar; lra. }
  assert (YL : y' <= y). { unfold y, y', Rdiv. rewrite !Rmult_1_l. apply Rinv_le_contravar; lra. }
  set (phi := fun z => if Reqb s 0 then ln z else (1 - Rpower z (- s)) / s).
  change ((y' - 1) / phi y' <= (y - 1) / phi y).
  assert (PP : forall z, 1 < z -> 0 < phi z).
  { intros z Hz. unfold phi. assert (Lz : 0 < ln z) by (rewrite <- ln_1; apply ln_increasing; lra). destruct (Reqb_spec s 0); [exact Lz|].
    apply Rdiv_lt_0_compat; [|lra]. enough (Rpower z (- s) < 1) by lra. unfold Rpower. rewrite <- exp_0. apply exp_increasing. nra. }
  set (t := (y' - 1) / (y - 1)).
  assert (Ht : 0 <= t <= 1).
  { unfold t. split; [apply Rmult_le_pos; [lra | left; apply Rinv_0_lt_compat; lra]|]. apply (Rmult_le_reg_r (y - 1)); [lra|]. unfold Rdiv. rewrite Rmult_assoc, Rinv_l by lra. lra. }
  assert (Ey : y' = t * y + (1 - t)) by (unfold t; field; lra).
  assert (C : t * phi y <= phi y').
  { unfold phi. pose proof (weighted_mean y t ltac:(lra) Ht) as W. rewrite <- Ey in W. destruct (Reqb_spec s 0) as [S0|S0]; [exact W|].
    apply (Rmult_le_reg_r s); [lra|]. replace (t * ((1 - Rpower y (- s)) / s) * s) with (t * (1 - Rpower y (- s))) by (field; lra).
    replace ((1 - Rpower y' (- s)) / s * s) with (1 - Rpower y' (- s)) by (field; lra).
    assert (X : Rpower y' (- s) <= t * Rpower y (- s) + (1 - t)).
    { unfold Rpower. apply Rle_trans with (exp (t * (- s * ln y) + (1 - t) * 0)); [apply exp_le; nra|]. eapply Rle_trans; [apply exp_convex, Ht|]. rewrite exp_0. lra. }
    lra. }
  pose proof (PP y ltac:(lra)) as P1. pose proof (PP y' Y') as P2.
  apply (Rmult_le_reg_r (phi y')); [exact P2|]. replace ((y' - 1) / phi y' * phi y') with (y' - 1) by (field; lra).
  apply (Rmult_le_reg_r (phi y)); [exact P1|]. replace ((y - 1) / phi y * phi y' * phi y) with ((y - 1) * phi y') by (field; lra).
  replace (y' - 1) with (t * (y - 1)) by (unfold t; field; lra). nra.
Qed.
