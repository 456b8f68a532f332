(** Inequalities on Renyi divergences of finite distributions. *)
From Verif Require Import Base XReal SpecDP SpecRenyi ProofDP.

(** ** Convexity *)
Lemma exp_tangent u m : exp m * (1 + (u - m)) <= exp u.
Proof.
  replace u with (m + (u - m)) at 2 by ring. rewrite exp_plus.
  apply Rmult_le_compat_l; [apply exp_pos_nonneg | apply exp_ineq1_le].
Qed.

Lemma exp_convex l u v : 0 <= l <= 1 -> exp (l * u + (1 - l) * v) <= l * exp u + (1 - l) * exp v.
Proof.
  intros Hl. set (m := l * u + (1 - l) * v).
  pose proof (exp_tangent u m) as A. pose proof (exp_tangent v m) as B.
  assert (l * (exp m * (1 + (u - m))) + (1 - l) * (exp m * (1 + (v - m))) = exp m).
  { unfold m at 2 4. ring. }
  assert (l * (exp m * (1 + (u - m))) <= l * exp u) by (apply Rmult_le_compat_l; lra).
  assert ((1 - l) * (exp m * (1 + (v - m))) <= (1 - l) * exp v) by (apply Rmult_le_compat_l; lra).
  lra.
Qed.

Lemma ln_le_sub y : 0 < y -> ln y <= y - 1.
Proof.
  intros H. pose proof (exp_ineq1_le (ln y)). rewrite exp_ln in H0 by assumption. lra.
Qed.

Lemma bernoulli a y : 1 <= a -> 0 < y -> 1 + a * (y - 1) <= Rpower y a.
Proof.
  intros Ha Hy. unfold Rpower.
  pose proof (exp_convex (/ a) (a * ln y) 0) as H.
  assert (Hi : 0 <= / a <= 1).
  { split; [left; apply Rinv_0_lt_compat; lra|].
    rewrite <- Rinv_1. apply Rinv_le_contravar; lra. }
  specialize (H Hi). replace (/ a * (a * ln y) + (1 - / a) * 0) with (ln y) in H by (field; lra).
  rewrite exp_ln, exp_0 in H by assumption.
  apply (Rmult_le_compat_l a) in H; [|lra].
  replace (a * (/ a * exp (a * ln y) + (1 - / a) * 1)) with (exp (a * ln y) + a - 1) in H by (field; lra).
  lra.
Qed.

Lemma neg_power c y : 0 <= c -> 0 < y -> 1 - c * (y - 1) <= exp (- c * ln y).
Proof.
  intros Hc Hy. pose proof (exp_ineq1_le (- c * ln y)). pose proof (ln_le_sub y Hy).
  assert (c * ln y <= c * (y - 1)) by (apply Rmult_le_compat_l; assumption). lra.
Qed.

Ltac rpos := repeat first [assumption | apply Rmult_lt_0_compat | apply Rdiv_lt_0_compat
  | apply Rinv_0_lt_compat | apply exp_pos]; lra.
Lemma ln_div x y : 0 < x -> 0 < y -> ln (x / y) = ln x - ln y.
Proof. intros Hx Hy. unfold Rdiv. rewrite ln_mult, ln_Rinv by rpos. ring. Qed.

(** ** Cauchy-Schwarz *)
Lemma cauchy_schwarz {A} (f g : A -> R) l :
  rsum (fun a => f a * g a) l * rsum (fun a => f a * g a) l <=
  rsum (fun a => f a * f a) l * rsum (fun a => g a * g a) l.
Proof.
  set (x := rsum (fun a => f a * f a) l). set (y := rsum (fun a => f a * g a) l).
  set (z := rsum (fun a => g a * g a) l).
  assert (H : forall t, 0 <= x + 2 * t * y + t * t * z).
  { intros t. replace (x + 2 * t * y + t * t * z) with
      (rsum (fun a => (f a + t * g a) * (f a + t * g a)) l).
    - apply rsum_nonneg. intros. apply Rle_0_sqr.
    - unfold x, y, z. rewrite <- !rsum_scal, <- !rsum_plus. apply rsum_ext. intros. ring. }
  assert (Hz : 0 <= z) by (apply rsum_nonneg; intros; apply Rle_0_sqr).
  assert (Hx : 0 <= x) by (apply rsum_nonneg; intros; apply Rle_0_sqr).
  destruct Hz as [Hz|Hz].
  - specialize (H (- y / z)). replace (x + 2 * (- y / z) * y + - y / z * (- y / z) * z)
      with ((x * z - y * y) / z) in H by (field; lra).
    apply (Rmult_le_compat_r z) in H; [|lra].
    replace ((x * z - y * y) / z * z) with (x * z - y * y) in H by (field; lra). lra.
  - rewrite <- Hz in *. destruct (Req_dec y 0) as [->|Ny]; [lra|].
    specialize (H (- (x + 1) / (2 * y))).
    replace (x + 2 * (- (x + 1) / (2 * y)) * y + - (x + 1) / (2 * y) * (- (x + 1) / (2 * y)) * 0)
      with (-1) in H by (field; assumption). lra.
Qed.

(** ** The Bhattacharyya coefficient *)
Section E.
  Context (E : exper) (V : valid E).
  Definition bc : R := rsum (fun o => sqrt (prP E o) * sqrt (prQ E o)) (outs E).
  Definition tv : R := rsum (fun o => pos (prP E o - prQ E o)) (outs E).

  Lemma P_pos o : In o (outs E) -> 0 <= prP E o.
  Proof. intros H. apply (proj1 V o H). Qed.
  Lemma Q_pos o : In o (outs E) -> 0 <= prQ E o.
  Proof. intros H. apply (proj1 V o H). Qed.
  Lemma P_sum : rsum (prP E) (outs E) = 1.
  Proof. apply V. Qed.
  Lemma Q_sum : rsum (prQ E) (outs E) = 1.
  Proof. apply V. Qed.

  Lemma bc_minus : rsum (fun o => (sqrt (prP E o) - sqrt (prQ E o)) * (sqrt (prP E o) - sqrt (prQ E o))) (outs E)
                   = 2 - 2 * bc.
  Proof.
    unfold bc. rewrite (rsum_ext _ (fun o => (prP E o + prQ E o) - 2 * (sqrt (prP E o) * sqrt (prQ E o)))).
    - rewrite rsum_minus, rsum_plus, rsum_scal, P_sum, Q_sum. ring.
    - intros o Ho. pose proof (sqrt_sqrt _ (P_pos o Ho)) as A.
      pose proof (sqrt_sqrt _ (Q_pos o Ho)) as B. lra.
  Qed.
  Lemma bc_plus : rsum (fun o => (sqrt (prP E o) + sqrt (prQ E o)) * (sqrt (prP E o) + sqrt (prQ E o))) (outs E)
                   = 2 + 2 * bc.
  Proof.
    unfold bc. rewrite (rsum_ext _ (fun o => (prP E o + prQ E o) + 2 * (sqrt (prP E o) * sqrt (prQ E o)))).
    - rewrite !rsum_plus, rsum_scal, P_sum, Q_sum. ring.
    - intros o Ho. pose proof (sqrt_sqrt _ (P_pos o Ho)) as A.
      pose proof (sqrt_sqrt _ (Q_pos o Ho)) as B. lra.
  Qed.
  Lemma bc_nonneg : 0 <= bc.
  Proof. apply rsum_nonneg. intros. apply Rmult_le_pos; apply sqrt_pos. Qed.
  Lemma bc_le1 : bc <= 1.
  Proof.
    assert (0 <= 2 - 2 * bc); [|lra]. rewrite <- bc_minus.
    apply rsum_nonneg. intros. apply Rle_0_sqr.
  Qed.

  Lemma tv_abs : 2 * tv = rsum (fun o => Rabs (prP E o - prQ E o)) (outs E).
  Proof.
    unfold tv. rewrite (rsum_ext (fun o => Rabs _) (fun o => 2 * pos (prP E o - prQ E o) - (prP E o - prQ E o))).
    - rewrite rsum_minus, rsum_scal, rsum_minus, P_sum, Q_sum. ring.
    - intros o _. destruct (pos_case (prP E o - prQ E o)) as [[H ->]|[H ->]];
        [rewrite Rabs_right by lra | rewrite Rabs_left by lra]; ring.
  Qed.
  Lemma tv_nonneg : 0 <= tv.
  Proof. apply rsum_nonneg. intros. apply pos_nonneg. Qed.

  (** Bretagnolle-Huber *)
  Lemma tv_bc : tv * tv <= 1 - bc * bc.
  Proof.
    pose proof (cauchy_schwarz (fun o => Rabs (sqrt (prP E o) - sqrt (prQ E o)))
                               (fun o => sqrt (prP E o) + sqrt (prQ E o)) (outs E)) as H.
    rewrite (rsum_ext (fun o => Rabs (sqrt (prP E o) - sqrt (prQ E o)) * (sqrt (prP E o) + sqrt (prQ E o)))
                      (fun o => Rabs (prP E o - prQ E o))) in H.
    - rewrite <- tv_abs in H.
      rewrite (rsum_ext (fun a => Rabs (sqrt (prP E a) - sqrt (prQ E a)) * Rabs (sqrt (prP E a) - sqrt (prQ E a)))
        (fun o => (sqrt (prP E o) - sqrt (prQ E o)) * (sqrt (prP E o) - sqrt (prQ E o)))) in H.
      + rewrite bc_minus, bc_plus in H. nra.
      + intros o _. rewrite <- Rabs_mult. apply Rabs_right, Rle_ge, Rle_0_sqr.
    - intros o Ho. rewrite <- (Rabs_right (sqrt (prP E o) + sqrt (prQ E o))).
      + rewrite <- Rabs_mult. f_equal.
        pose proof (sqrt_sqrt _ (P_pos o Ho)) as A.
        pose proof (sqrt_sqrt _ (Q_pos o Ho)) as B. lra.
      + pose proof (sqrt_pos (prP E o)). pose proof (sqrt_pos (prQ E o)). lra.
  Qed.

  Lemma hs_tv eps : 0 <= eps -> hockey_stick E eps <= tv.
  Proof.
    intros He. apply rsum_le. intros o Ho. apply pos_le.
    pose proof (Q_pos o Ho). pose proof (exp_le 0 eps He). rewrite exp_0 in *. nra.
  Qed.

  (** ** The coefficient is bounded below by a Renyi divergence *)
  Hypothesis AC : absolutely_continuous E.
  Lemma Q_gt o : In o (outs E) -> prP E o <> 0 -> 0 < prP E o /\ 0 < prQ E o.
  Proof.
    intros Ho N. pose proof (P_pos o Ho). pose proof (Q_pos o Ho). split; [lra|].
    destruct (Req_dec (prQ E o) 0) as [Z|]; [|lra]. apply AC in Z; tauto.
  Qed.

  Lemma sqrt_ratio p q : 0 < p -> 0 < q -> sqrt p * sqrt q = p * exp (- / 2 * ln (p / q)).
  Proof.
    intros Hp Hq.
    assert (H : forall x, 0 < x -> sqrt x = exp (/ 2 * ln x)).
    { intros x Hx. rewrite <- Rpower_sqrt by assumption. reflexivity. }
    rewrite !H by assumption. rewrite <- (exp_ln p) at 2 by assumption.
    rewrite <- !exp_plus. f_equal. unfold Rdiv. rewrite ln_mult, ln_Rinv by (try apply Rinv_0_lt_compat; assumption). field.
  Qed.

  Lemma moment_pos a : 0 < renyi_moment E a.
  Proof.
    unfold renyi_moment.
    assert (N : forall o, In o (outs E) -> 0 <= (if Reqb (prP E o) 0 then 0
       else prP E o * Rpower (prP E o / prQ E o) (a - 1))).
    { intros o Ho. destruct (Reqb_spec (prP E o) 0); [lra|].
      apply Rmult_le_pos; [apply P_pos; assumption | apply Rlt_le, exp_pos]. }
    destruct (Rle_lt_or_eq_dec 0 (rsum (fun o => if Reqb (prP E o) 0 then 0
       else prP E o * Rpower (prP E o / prQ E o) (a - 1)) (outs E))) as [H|H]; [apply rsum_nonneg; exact N | exact H |].
    exfalso. assert (Z : rsum (prP E) (outs E) = 0).
    { apply rsum_zero. intros o Ho.
      pose proof (rsum_In_le _ _ o N Ho) as L. rewrite <- H in L.
      destruct (Reqb_spec (prP E o) 0) as [->|NZ]; [reflexivity|].
      pose proof (exp_pos ((a - 1) * ln (prP E o / prQ E o))) as EP. pose proof (P_pos o Ho).
      unfold Rpower in L. nra. }
    rewrite P_sum in Z. lra.
  Qed.

  Lemma bc_renyi a : 1 < a -> exp (- / 2 * (ln (renyi_moment E a) / (a - 1))) <= bc.
  Proof.
    intros Ha. pose proof (moment_pos a) as HM. set (M := renyi_moment E a) in *.
    set (c := / (2 * (a - 1))).
    assert (Hc : 0 <= c) by (left; apply Rinv_0_lt_compat; lra).
    replace (- / 2 * (ln M / (a - 1))) with (- c * ln M) by (unfold c; field; lra).
    unfold bc. rewrite <- (Rmult_1_r (exp _)).
    apply Rle_trans with (rsum (fun o => exp (- c * ln M) *
       (prP E o - c * ((if Reqb (prP E o) 0 then 0 else prP E o * Rpower (prP E o / prQ E o) (a - 1)) / M - prP E o))) (outs E)).
    - rewrite rsum_scal, rsum_minus, rsum_scal, rsum_minus, P_sum. unfold Rdiv at 1.
      rewrite rsum_scal_r. change (rsum _ (outs E)) with M.
      rewrite Rinv_r by lra. apply Req_le. ring.
    - apply rsum_le. intros o Ho. destruct (Reqb_spec (prP E o) 0) as [Z|N].
      + rewrite Z. unfold Rdiv. rewrite sqrt_0. lra.
      + destruct (Q_gt o Ho N) as [HP HQ]. rewrite sqrt_ratio by assumption.
        set (p := prP E o) in *. set (q := prQ E o) in *.
        assert (HR : 0 < p / q) by (apply Rdiv_lt_0_compat; assumption).
        set (x := Rpower (p / q) (a - 1)).
        assert (Hx : 0 < x) by apply exp_pos.
        pose proof (neg_power c (x / M) Hc (Rdiv_lt_0_compat _ _ Hx HM)) as B.
        replace (exp (- / 2 * ln (p / q))) with (exp (- c * ln M) * exp (- c * ln (x / M))).
        * replace (p - c * (p * x / M - p)) with (p * (1 - c * (x / M - 1))) by (field; lra).
          pose proof (exp_pos (- c * ln M)).
          replace (p * (exp (- c * ln M) * exp (- c * ln (x / M)))) with
            (exp (- c * ln M) * (p * exp (- c * ln (x / M)))) by ring.
          apply Rmult_le_compat_l; [lra|]. apply Rmult_le_compat_l; lra.
        * rewrite <- exp_plus. f_equal. unfold Rdiv at 1.
          rewrite ln_mult, ln_Rinv by (try apply Rinv_0_lt_compat; assumption).
          unfold x, Rpower. rewrite ln_exp. unfold c. field. lra.
  Qed.

  Lemma bc_kl : exp (- / 2 * kl E) <= bc.
  Proof.
    unfold bc. set (K := kl E). rewrite <- (Rmult_1_r (exp _)).
    apply Rle_trans with (rsum (fun o => exp (- / 2 * K) *
       (prP E o - / 2 * ((if Reqb (prP E o) 0 then 0 else prP E o * ln (prP E o / prQ E o)) - prP E o * K))) (outs E)).
    - rewrite rsum_scal, rsum_minus, rsum_scal, rsum_minus, rsum_scal_r, P_sum.
      change (rsum (fun o => if Reqb (prP E o) 0 then 0 else prP E o * ln (prP E o / prQ E o)) (outs E)) with K.
      apply Req_le. ring.
    - apply rsum_le. intros o Ho. destruct (Reqb_spec (prP E o) 0) as [Z|N].
      + rewrite Z, sqrt_0. lra.
      + destruct (Q_gt o Ho N) as [HP HQ]. rewrite sqrt_ratio by assumption.
        set (p := prP E o) in *. set (q := prQ E o) in *.
        pose proof (exp_tangent (- / 2 * ln (p / q)) (- / 2 * K)) as T.
        replace (exp (- / 2 * K) * (p - / 2 * (p * ln (p / q) - p * K))) with
          (p * (exp (- / 2 * K) * (1 + (- / 2 * ln (p / q) - - / 2 * K)))) by ring.
        apply Rmult_le_compat_l; lra.
  Qed.

  Lemma bc_max r : (forall o, In o (outs E) -> prP E o <= exp r * prQ E o) -> exp (- / 2 * r) <= bc.
  Proof.
    intros H. unfold bc. rewrite <- (Rmult_1_r (exp _)), <- P_sum, <- rsum_scal.
    apply rsum_le. intros o Ho. destruct (Req_dec (prP E o) 0) as [Z|N].
    - rewrite Z, sqrt_0. lra.
    - destruct (Q_gt o Ho N) as [HP HQ]. rewrite sqrt_ratio by assumption.
      rewrite Rmult_comm. apply Rmult_le_compat_l; [lra|]. apply exp_le.
      assert (ln (prP E o / prQ E o) <= r); [|lra].
      apply exp_le_inv2. rewrite exp_ln by (apply Rdiv_lt_0_compat; assumption).
      apply (Rmult_le_reg_r (prQ E o)); [assumption|]. specialize (H o Ho).
      replace (prP E o / prQ E o * prQ E o) with (prP E o) by (field; lra). assumption.
  Qed.
End E.

Lemma renyi_bc E a r : valid E -> renyi_bounded E a (Fin r) -> exp (- / 2 * r) <= bc E.
Proof.
  intros V [AC H]. destruct a as [a| | |]; try contradiction.
  - destruct H as [Ha H]. unfold renyi in H. destruct (Reqb_spec a 1) as [->|N].
    + eapply Rle_trans; [|apply (bc_kl E V AC)]. apply exp_le. lra.
    + eapply Rle_trans; [|apply (bc_renyi E V AC a); lra]. apply exp_le. lra.
  - apply bc_max; assumption.
Qed.

Lemma renyi_nonneg E a r : valid E -> renyi_bounded E a (Fin r) -> 0 <= r.
Proof.
  intros V H. pose proof (renyi_bc E a r V H) as B. pose proof (bc_le1 E V) as L.
  assert (exp (- / 2 * r) <= exp 0) by (rewrite exp_0; lra). apply exp_le_inv2 in H0. lra.
Qed.

Lemma tv_renyi E a r : valid E -> renyi_bounded E a (Fin r) -> tv E * tv E <= 1 - exp (- r).
Proof.
  intros V H. pose proof (renyi_bc E a r V H) as B. pose proof (tv_bc E V) as T.
  replace (- r) with (- / 2 * r + - / 2 * r) by field. rewrite exp_plus.
  pose proof (exp_pos (- / 2 * r)). nra.
Qed.

(** ** The improved conversion *)
Lemma conversion_point a t p q : 1 < a -> 0 < t -> 0 < p -> 0 < q ->
  p - t * q <= exp ((a - 1) * ln (1 - / a) - ln a - (a - 1) * ln t) * (p * Rpower (p / q) (a - 1)).
Proof.
  intros Ha Ht Hp Hq.
  set (y := p / q * ((a - 1) / (t * a))).
  assert (HR : 0 < p / q) by (apply Rdiv_lt_0_compat; assumption).
  assert (HT : 0 < (a - 1) / (t * a)) by (apply Rdiv_lt_0_compat; [lra | apply Rmult_lt_0_compat; lra]).
  assert (Hy : 0 < y) by (apply Rmult_lt_0_compat; assumption).
  pose proof (bernoulli a y ltac:(lra) Hy) as B.
  assert (Ha1 : 1 - / a = (a - 1) / a) by (field; lra).
  assert (Li : ln (/ a) = - ln a) by (apply ln_Rinv; lra).
  replace (exp _ * _) with (q * (t / (a - 1)) * Rpower y a).
  - apply Rle_trans with (q * (t / (a - 1)) * (1 + a * (y - 1))).
    + apply Req_le. unfold y. field. repeat split; lra.
    + apply Rmult_le_compat_l; [|assumption]. left. apply Rmult_lt_0_compat; [assumption|].
      apply Rdiv_lt_0_compat; lra.
  - unfold Rpower. replace (p * exp ((a - 1) * ln (p / q))) with (exp (ln p) * exp ((a - 1) * ln (p / q)))
      by (rewrite exp_ln by assumption; reflexivity).
    rewrite <- (exp_ln (q * (t / (a - 1)))) by (apply Rmult_lt_0_compat; [assumption | apply Rdiv_lt_0_compat; lra]).
    rewrite <- !exp_plus. f_equal. rewrite Ha1. unfold y.
    repeat first [rewrite ln_mult by rpos | rewrite ln_div by rpos]. ring.
Qed.

Lemma hs_renyi E a r eps : valid E -> 1 < a -> renyi_bounded E (Fin a) (Fin r) ->
  hockey_stick E eps <= exp ((a - 1) * (r - eps + ln (1 - / a)) - ln a).
Proof.
  intros V Ha [AC [_ H]]. unfold renyi in H. rewrite Reqb_false in H by lra.
  pose proof (moment_pos E V a) as HM.
  assert (M : renyi_moment E a <= exp ((a - 1) * r)).
  { rewrite <- (exp_ln (renyi_moment E a)) by assumption. apply exp_le.
    apply (Rmult_le_compat_l (a - 1)) in H; [|lra].
    replace ((a - 1) * (ln (renyi_moment E a) / (a - 1))) with (ln (renyi_moment E a)) in H by (field; lra). lra. }
  set (k := (a - 1) * ln (1 - / a) - ln a - (a - 1) * ln (exp eps)).
  apply Rle_trans with (exp k * renyi_moment E a).
  - unfold renyi_moment. rewrite <- rsum_scal. apply rsum_le. intros o Ho.
    pose proof (Q_pos E V o Ho) as Q0. pose proof (exp_pos eps) as Ep.
    destruct (Reqb_spec (prP E o) 0) as [Z|N].
    + rewrite Z, Rmult_0_r, pos_0; nra.
    + destruct (Q_gt E V AC o Ho N) as [HP HQ].
      apply pos_le_bound.
      * apply Rmult_le_pos; [apply exp_pos_nonneg|]. apply Rmult_le_pos; [lra | apply exp_pos_nonneg].
      * apply conversion_point; assumption.
  - apply Rle_trans with (exp k * exp ((a - 1) * r)).
    + apply Rmult_le_compat_l; [apply exp_pos_nonneg | assumption].
    + rewrite <- exp_plus. apply Req_le. f_equal. unfold k. rewrite ln_exp. ring.
Qed.

(** ** Adaptive composition *)
Lemma ac_seq E1 E2 : absolutely_continuous E1 ->
  (forall o, In o (outs E1) -> absolutely_continuous (E2 o)) ->
  absolutely_continuous (seq_exper E1 E2).
Proof.
  intros A1 A2 oo Hin Z. apply seq_In in Hin. destruct Hin as [H1 H2]. cbn in *.
  apply Rmult_integral in Z. destruct Z as [Z|Z].
  - rewrite (A1 _ H1 Z). ring.
  - rewrite (A2 _ H1 _ H2 Z). ring.
Qed.

Lemma moment_seq E1 E2 a : valid E1 -> absolutely_continuous E1 ->
  (forall o, In o (outs E1) -> valid (E2 o)) ->
  (forall o, In o (outs E1) -> absolutely_continuous (E2 o)) ->
  renyi_moment (seq_exper E1 E2) a =
  rsum (fun o => (if Reqb (prP E1 o) 0 then 0 else prP E1 o * Rpower (prP E1 o / prQ E1 o) (a - 1))
                 * renyi_moment (E2 o) a) (outs E1).
Proof.
  intros V1 A1 V2 A2. unfold renyi_moment at 1. rewrite rsum_seq. apply rsum_ext. intros o Ho.
  unfold renyi_moment. rewrite <- rsum_scal. apply rsum_ext. intros o2 Ho2. cbn [prP prQ seq_exper projT1 projT2].
  destruct (Reqb_spec (prP E1 o) 0) as [Z1|N1].
  { rewrite Z1, Rmult_0_l, Reqb_refl. ring. }
  destruct (Reqb_spec (prP (E2 o) o2) 0) as [Z2|N2].
  { rewrite Z2, Rmult_0_r, Reqb_refl. ring. }
  rewrite Reqb_false by (apply Rmult_integral_contrapositive_currified; assumption).
  destruct (Q_gt E1 V1 A1 o Ho N1) as [P1 Q1]. destruct (Q_gt (E2 o) (V2 o Ho) (A2 o Ho) o2 Ho2 N2) as [P2 Q2].
  replace (prP E1 o * prP (E2 o) o2 / (prQ E1 o * prQ (E2 o) o2))
    with ((prP E1 o / prQ E1 o) * (prP (E2 o) o2 / prQ (E2 o) o2)) by (field; lra).
  rewrite <- Rpower_mult_distr by (apply Rdiv_lt_0_compat; assumption). ring.
Qed.

Lemma kl_seq E1 E2 : valid E1 -> absolutely_continuous E1 ->
  (forall o, In o (outs E1) -> valid (E2 o)) ->
  (forall o, In o (outs E1) -> absolutely_continuous (E2 o)) ->
  kl (seq_exper E1 E2) = kl E1 + rsum (fun o => prP E1 o * kl (E2 o)) (outs E1).
Proof.
  intros V1 A1 V2 A2. unfold kl at 1. rewrite rsum_seq. unfold kl at 1. rewrite <- rsum_plus.
  apply rsum_ext. intros o Ho.
  transitivity (rsum (fun o2 => prP (E2 o) o2 * (if Reqb (prP E1 o) 0 then 0 else prP E1 o * ln (prP E1 o / prQ E1 o)))
                 (outs (E2 o)) + prP E1 o * kl (E2 o)).
  2: { rewrite rsum_scal_r, (P_sum _ (V2 o Ho)). ring. }
  unfold kl. rewrite <- rsum_scal, <- rsum_plus. apply rsum_ext. intros o2 Ho2.
  cbn [prP prQ seq_exper projT1 projT2].
  destruct (Reqb_spec (prP E1 o) 0) as [Z1|N1].
  { rewrite Z1, Rmult_0_l, Reqb_refl. ring. }
  destruct (Reqb_spec (prP (E2 o) o2) 0) as [Z2|N2].
  { rewrite Z2, Rmult_0_r, Reqb_refl. ring. }
  rewrite Reqb_false by (apply Rmult_integral_contrapositive_currified; assumption).
  destruct (Q_gt E1 V1 A1 o Ho N1) as [P1 Q1]. destruct (Q_gt (E2 o) (V2 o Ho) (A2 o Ho) o2 Ho2 N2) as [P2 Q2].
  repeat first [rewrite ln_mult by rpos | rewrite ln_div by rpos]. ring.
Qed.

Lemma renyi_moment_le E a r : valid E -> absolutely_continuous E -> 1 < a ->
  (renyi E a <= r <-> renyi_moment E a <= exp ((a - 1) * r)).
Proof.
  intros V AC Ha. pose proof (moment_pos E V a) as HM. unfold renyi. rewrite Reqb_false by lra.
  set (M := renyi_moment E a) in *. split; intros H.
  - rewrite <- (exp_ln M) by assumption. apply exp_le.
    apply (Rmult_le_compat_l (a - 1)) in H; [|lra].
    replace ((a - 1) * (ln M / (a - 1))) with (ln M) in H by (field; lra). lra.
  - apply (Rmult_le_reg_l (a - 1)); [lra|].
    replace ((a - 1) * (ln M / (a - 1))) with (ln M) by (field; lra).
    rewrite <- (ln_exp ((a - 1) * r)). apply ln_le_mono; assumption.
Qed.

Lemma renyi_seq E1 E2 a r1 r2 : valid E1 -> (forall o, In o (outs E1) -> valid (E2 o)) ->
  renyi_bounded E1 a (Fin r1) -> (forall o, In o (outs E1) -> renyi_bounded (E2 o) a (Fin r2)) ->
  renyi_bounded (seq_exper E1 E2) a (Fin (r1 + r2)).
Proof.
  intros V1 V2 [A1 H1] H2.
  assert (A2 : forall o, In o (outs E1) -> absolutely_continuous (E2 o)) by (intros o Ho; apply H2; assumption).
  split; [apply ac_seq; assumption|]. destruct a as [a| | |]; try contradiction.
  - destruct H1 as [Ha H1]. split; [assumption|].
    assert (B2 : forall o, In o (outs E1) -> renyi (E2 o) a <= r2) by (intros o Ho; apply H2; assumption).
    destruct (Req_dec a 1) as [->|N].
    + unfold renyi in *. rewrite Reqb_refl in *. rewrite kl_seq by assumption.
      apply Rplus_le_compat; [assumption|]. rewrite <- (Rmult_1_l r2), <- (P_sum E1 V1), <- rsum_scal_r.
      apply rsum_le. intros o Ho. apply Rmult_le_compat_l; [apply (P_pos E1 V1 o Ho)|].
      specialize (B2 o Ho). assumption.
    + assert (Ha1 : 1 < a) by lra.
      apply renyi_moment_le; [apply valid_seq; assumption | apply ac_seq; assumption | assumption |].
      apply (renyi_moment_le E1 a r1 V1 A1 Ha1) in H1.
      rewrite moment_seq by assumption.
      apply Rle_trans with (renyi_moment E1 a * exp ((a - 1) * r2)).
      * unfold renyi_moment at 2. rewrite <- rsum_scal_r. apply rsum_le. intros o Ho.
        apply Rmult_le_compat_l.
        -- destruct (Reqb (prP E1 o) 0); [lra|]. apply Rmult_le_pos; [apply (P_pos E1 V1 o Ho) | apply exp_pos_nonneg].
        -- apply renyi_moment_le; [apply V2 | apply A2 | | apply B2]; assumption.
      * rewrite Rmult_plus_distr_l, exp_plus. apply Rmult_le_compat_r; [apply exp_pos_nonneg | assumption].
  - intros oo Hin. apply seq_In in Hin. destruct Hin as [I1 I2]. cbn.
    specialize (H1 _ I1). destruct (H2 _ I1) as [_ B]. specialize (B _ I2).
    rewrite exp_plus.
    replace (exp r1 * exp r2 * (prQ E1 (projT1 oo) * prQ (E2 (projT1 oo)) (projT2 oo)))
      with ((exp r1 * prQ E1 (projT1 oo)) * (exp r2 * prQ (E2 (projT1 oo)) (projT2 oo))) by ring.
    apply Rmult_le_compat; [apply (P_pos E1 V1 _ I1) | apply (P_pos _ (V2 _ I1) _ I2) | assumption | assumption].
Qed.

(** Sums of bounds, with infinities. *)
Lemma renyi_seq_x E1 E2 a r1 r2 : valid E1 -> (forall o, In o (outs E1) -> valid (E2 o)) ->
  renyi_bounded E1 a r1 -> (forall o, In o (outs E1) -> renyi_bounded (E2 o) a r2) ->
  renyi_bounded (seq_exper E1 E2) a (xadd r1 r2).
Proof.
  intros V1 V2 H1 H2.
  assert (Ne : outs E1 <> []).
  { intros E. pose proof (P_sum E1 V1) as S. rewrite E in S. cbn in S. lra. }
  destruct (outs E1) as [|o0 l] eqn:Eo; [congruence|]. rewrite <- Eo in *.
  assert (I0 : In o0 (outs E1)) by (rewrite Eo; left; reflexivity).
  destruct r1 as [r1| | |]; try contradiction; destruct r2 as [r2| | |]; try exact I;
    try (specialize (H2 _ I0); contradiction).
  apply renyi_seq; assumption.
Qed.

Lemma rdp_seq_x E1 E2 a r1 r2 : valid E1 -> (forall o, In o (outs E1) -> valid (E2 o)) ->
  rdp_bounded E1 a r1 -> (forall o, In o (outs E1) -> rdp_bounded (E2 o) a r2) ->
  rdp_bounded (seq_exper E1 E2) a (xadd r1 r2).
Proof.
  intros V1 V2 H1 H2. split.
  - apply renyi_seq_x; try assumption; [apply H1 | intros o Ho; apply H2; assumption].
  - rewrite swap_seq. apply renyi_seq_x.
    + apply valid_swap; assumption.
    + intros o Ho. apply valid_swap, V2. exact Ho.
    + apply H1.
    + intros o Ho. apply H2. exact Ho.
Qed.
