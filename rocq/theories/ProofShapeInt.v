(** Distributions on the integers: the discrete Laplace and the truncated discrete Gaussian
    distributions are noise families. *)
From Verif Require Import Base XReal PyDict SpecDP SpecMech ProofDP ProofPeak ProofNoise ProofShape.
Local Arguments Rltb : simpl never.
Local Arguments Rleb : simpl never.
Local Arguments Reqb : simpl never.

Lemma Rfloor_IZR z : Rfloor (IZR z) = z.
Proof. apply Rfloor_unique. lra. Qed.
Lemma Rfloor_plus x z : Rfloor (x + IZR z) = (Rfloor x + z)%Z.
Proof. apply Rfloor_unique. rewrite plus_IZR. pose proof (Rfloor_spec x). lra. Qed.
Lemma Rfloor_mono x y : x <= y -> (Rfloor x <= Rfloor y)%Z.
Proof. intros H. apply Rfloor_le_iff. pose proof (Rfloor_spec x). lra. Qed.

Lemma int_climb (H : Z -> R) (a b : Z) : (a <= b)%Z -> (forall k, (a < k <= b)%Z -> H (k - 1)%Z <= H k) -> H a <= H b.
Proof.
  intros L. pattern b. apply Zlt_lower_bound_ind with (z := a); [|assumption]. clear b L. intros b IH L S.
  destruct (Z.eq_dec a b) as [->|N]; [lra|].
  apply (Rle_trans _ (H (b - 1)%Z)); [|apply S; lia]. apply IH; [lia|]. intros k Hk. apply S. lia.
Qed.

(** [p] is the probability of each integer, [G] the cumulative sum *)
Lemma int_uni (G p : Z -> R) (s : Z) t pk : (forall k, G k - G (k - 1)%Z = p k) -> pk <> NaN ->
  (forall k, xleb (Fin (IZR k)) pk = true -> t * p k <= p (k + s)%Z) ->
  (forall k, xleb (Fin (IZR k)) pk = false -> p (k + s)%Z <= t * p k) ->
  (forall a, pk = Fin a -> exists z, a = IZR z) ->
  uni (fun x => G (Rfloor (x + IZR s)) - t * G (Rfloor x)) pk.
Proof.
  intros HG N H1 H2 HI. split; [assumption|]. 
  assert (ST : forall k, G (k + s)%Z - t * G k - (G (k - 1 + s)%Z - t * G (k - 1)%Z) = p (k + s)%Z - t * p k).
  { intros k. rewrite <- (HG (k + s)%Z), <- (HG k). replace (k + s - 1)%Z with (k - 1 + s)%Z by lia. ring. }
  split; intros x y L Hp; rewrite !Rfloor_plus.
  - apply (int_climb (fun k => G (k + s)%Z - t * G k)); [apply Rfloor_mono, L|]. intros k Hk.
    specialize (H1 k). assert (xleb (Fin (IZR k)) pk = true).
    { apply (xleb_trans _ (Fin y)); [|assumption]. apply xleb_fin. apply Rfloor_le_iff. lia. }
    specialize (H1 H). specialize (ST k). lra.
  - assert (Q : - (G (Rfloor x + s)%Z - t * G (Rfloor x)) <= - (G (Rfloor y + s)%Z - t * G (Rfloor y))); [|lra].
    apply (int_climb (fun k => - (G (k + s)%Z - t * G k))); [apply Rfloor_mono, L|]. intros k Hk.
    specialize (H2 k). assert (xleb (Fin (IZR k)) pk = false).
    { destruct pk as [a| | |]; try discriminate; try reflexivity. destruct (HI a eq_refl) as [z ->]. cbn. apply Rleb_false.
      apply xleb_fin in Hp. apply Rfloor_le_iff in Hp. apply IZR_lt. lia. }
    specialize (H2 H). specialize (ST k). lra.
Qed.
Lemma int_cdf (G : Z -> R) : (forall k, 0 <= G k <= 1) -> (forall k, G (k - 1)%Z <= G k) ->
  (forall e, 0 < e -> exists k, G k < e) -> (forall e, 0 < e -> exists k, 1 - e < G k) -> is_cdf (fun x => G (Rfloor x)).
Proof.
  intros B M L U. split; [intros; apply B|]. split; [|split].
  - intros x y H. apply int_climb; [apply Rfloor_mono, H | intros; apply M].
  - intros e He. destruct (L e He) as [k Hk]. exists (IZR k). rewrite Rfloor_IZR. assumption.
  - intros e He. destruct (U e He) as [k Hk]. exists (IZR k). rewrite Rfloor_IZR. assumption.
Qed.
Lemma integer_ok : (forall v, integer_value v -> integer_value (- v)) /\
  (forall v w, integer_value v -> integer_value w -> integer_value (v + w)) /\ integer_value 0.
Proof.
  split; [intros v [z ->]; exists (- z)%Z; symmetry; apply opp_IZR|]. split; [|exists 0%Z; reflexivity].
  intros v w [z ->] [u ->]. exists (z + u)%Z. symmetry. apply plus_IZR.
Qed.
Lemma int_mirror (G : Z -> R) : (forall k, G k = 1 - G (- k - 1)%Z) -> 
  mirror integer_value (fun x => G (Rfloor x)) (fun x => IZR (- Rfloor x - 1)).
Proof.
  intros S. split; [|split].
  - intros x y H. apply IZR_le. pose proof (Rfloor_mono _ _ H). lia.
  - intros x. rewrite Rfloor_IZR. apply S.
  - intros x v [z ->]. unfold Rminus. rewrite <- opp_IZR, Rfloor_plus, <- plus_IZR. f_equal. lia.
Qed.

(** ** Discrete Laplace *)
Section DLaplace.
  Variable a : R.
  Hypothesis Ha : 0 < a.
  Definition dlaplace_G (k : Z) : R :=
    if (0 <=? k)%Z then 1 - exp (- a * IZR k) / (exp a + 1) else exp (a * (IZR k + 1)) / (exp a + 1).
  Definition dlaplace_law (x : R) : R := dlaplace_G (Rfloor x).
  Let c := (exp a - 1) / (exp a + 1).
  Let ea : 1 < exp a.
  Proof. rewrite <- exp_0. apply exp_increasing, Ha. Qed.
  Lemma dl_c : 0 <= c.
  Proof. unfold c. apply Rmult_le_pos; [lra | left; apply Rinv_0_lt_compat; lra]. Qed.
  Lemma dl_step k : dlaplace_G k - dlaplace_G (k - 1) = c * exp (- a * Rabs (IZR k)).
  Proof.
    unfold dlaplace_G, c. rewrite !minus_IZR. destruct (Z.leb_spec 0 k), (Z.leb_spec 0 (k - 1)); try lia.
    - apply IZR_le in H. rewrite Rabs_right by lra.
      replace (- a * (IZR k - 1)) with (- a * IZR k + a) by ring. rewrite exp_plus. field. lra.
    - assert (k = 0%Z) as -> by lia. rewrite Rabs_R0. replace (- a * 0) with 0 by ring. replace (a * (0 - 1 + 1)) with 0 by ring. rewrite exp_0. field. lra.
    - apply IZR_lt in H. rewrite Rabs_left by lra. replace (- a * - IZR k) with (a * IZR k) by ring.
      replace (a * (IZR k - 1 + 1)) with (a * IZR k) by ring. replace (a * (IZR k + 1)) with (a * IZR k + a) by ring.
      rewrite exp_plus. field. lra.
  Qed.
  Lemma dl_mirror k : dlaplace_G k = 1 - dlaplace_G (- k - 1).
  Proof.
    unfold dlaplace_G. destruct (Z.leb_spec 0 k), (Z.leb_spec 0 (- k - 1)); try lia; rewrite minus_IZR, opp_IZR.
    - replace (a * (- IZR k - 1 + 1)) with (- a * IZR k) by ring. reflexivity.
    - replace (- a * (- IZR k - 1)) with (a * (IZR k + 1)) by ring. ring.
  Qed.
  Lemma dl_low e : 0 < e -> exists k, dlaplace_G k < e.
  Proof.
    intros He. pose (k := Z.min (-1) (Rfloor (ln e / a - 1) )). exists k. unfold dlaplace_G.
    assert (K : (k <= -1)%Z) by (unfold k; lia). destruct (Z.leb_spec 0 k); [lia|].
    assert (K2 : IZR k <= ln e / a - 1). { apply Rfloor_le_iff. unfold k. lia. }
    assert (E : exp (a * (IZR k + 1)) <= e).
    { rewrite <- (exp_ln e) by assumption. apply exp_le. replace (ln e) with (a * (ln e / a)) by (field; lra). apply Rmult_le_compat_l; lra. }
    apply (Rmult_lt_reg_r (exp a + 1)); [lra|]. unfold Rdiv. rewrite Rmult_assoc, Rinv_l by lra. nra.
  Qed.
  Lemma dl_is_cdf : is_cdf dlaplace_law.
  Proof.
    assert (POS : forall k, 0 <= dlaplace_G k).
    { intros k. unfold dlaplace_G. destruct (Z.leb_spec 0 k).
      - assert (exp (- a * IZR k) <= exp 0). { apply exp_le. apply IZR_le in H. nra. } rewrite exp_0 in H0.
        pose proof (exp_pos (- a * IZR k)). apply (Rmult_le_reg_r (exp a + 1)); [lra|].
        rewrite Rmult_minus_distr_r. unfold Rdiv. rewrite Rmult_assoc, Rinv_l by lra. lra.
      - apply Rmult_le_pos; [left; apply exp_pos | left; apply Rinv_0_lt_compat; lra]. }
    apply int_cdf.
    - intros k. split; [apply POS|]. rewrite dl_mirror. specialize (POS (- k - 1)%Z). lra.
    - intros k. pose proof (dl_step k). assert (0 <= c * exp (- a * Rabs (IZR k))).
      { apply Rmult_le_pos; [apply dl_c | left; apply exp_pos]. } lra.
    - apply dl_low.
    - intros e He. destruct (dl_low e He) as [k Hk]. exists (- k - 1)%Z. rewrite dl_mirror.
      replace (- (- k - 1) - 1)%Z with k by lia. lra.
  Qed.
  Definition dlaplace_peak (s : Z) (l : R) : xr :=
    if Rltb (IZR s) (l / a) then MInf else if Rleb (l / a) (- IZR s) then PInf
    else Fin (IZR (Rfloor (1/2 * (- IZR s - l / a)))).
  Lemma dlaplace_loss_left s l k : (0 <= s)%Z -> xleb (Fin (IZR k)) (dlaplace_peak s l) = true ->
    l <= (Rabs (IZR k) - Rabs (IZR k + IZR s)) * a.
  Proof.
    intros Hs. apply IZR_le in Hs. unfold dlaplace_peak. assert (La : l = l / a * a) by (field; lra).
    intros H. rewrite La. apply Rmult_le_compat_r; [lra|]. revert H. generalize (l / a). clear La. intros h.
    destruct (Rltb_spec (IZR s) h); [discriminate|]. destruct (Rleb_spec h (- IZR s)); intros H.
    - unfold Rabs. destruct (Rcase_abs (IZR k)), (Rcase_abs (IZR k + IZR s)); lra.
    - apply xleb_fin in H. pose proof (Rfloor_spec (1/2 * (- IZR s - h))).
      unfold Rabs. destruct (Rcase_abs (IZR k)), (Rcase_abs (IZR k + IZR s)); lra.
  Qed.
  Lemma dlaplace_loss_right s l k : (0 <= s)%Z -> xleb (Fin (IZR k)) (dlaplace_peak s l) = false ->
    (Rabs (IZR k) - Rabs (IZR k + IZR s)) * a < l.
  Proof.
    intros Hs. apply IZR_le in Hs. unfold dlaplace_peak. assert (La : l = l / a * a) by (field; lra).
    intros H. rewrite La at 1. apply Rmult_lt_compat_r; [lra|]. revert H. generalize (l / a). clear La. intros h.
    destruct (Rltb_spec (IZR s) h).
    - intros _. unfold Rabs. destruct (Rcase_abs (IZR k)), (Rcase_abs (IZR k + IZR s)); lra.
    - destruct (Rleb_spec h (- IZR s)); intros H; [discriminate|].
      assert (K : (Rfloor (1/2 * (- IZR s - h)) < k)%Z).
      { apply lt_IZR. cbn in H. revert H. destruct (Rleb_spec (IZR k) (IZR (Rfloor (1 / 2 * (- IZR s - h))))); [discriminate | lra]. }
      assert (K2 : 1/2 * (- IZR s - h) < IZR k).
      { destruct (Rle_lt_dec (IZR k) (1/2 * (- IZR s - h))) as [L|L]; [|assumption]. apply Rfloor_le_iff in L. lia. }
      unfold Rabs. destruct (Rcase_abs (IZR k)), (Rcase_abs (IZR k + IZR s)); lra.
  Qed.
  Lemma dlaplace_shape s : (0 <= s)%Z -> shape dlaplace_law (IZR s) (dlaplace_peak s).
  Proof.
    intros Hs. split; [apply dl_is_cdf|]. split; [apply IZR_le, Hs|]. intros l. unfold dlaplace_law.
    apply (int_uni dlaplace_G (fun k => c * exp (- a * Rabs (IZR k)))).
    - apply dl_step.
    - unfold dlaplace_peak. destruct (Rltb _ _); [|destruct (Rleb _ _)]; discriminate.
    - intros k H. apply dlaplace_loss_left in H; [|assumption]. apply exp_ratio_ge; [apply dl_c|]. rewrite plus_IZR. lra.
    - intros k H. apply dlaplace_loss_right in H; [|assumption]. apply exp_ratio_le; [apply dl_c|]. rewrite plus_IZR. lra.
    - unfold dlaplace_peak. destruct (Rltb _ _); [discriminate|]. destruct (Rleb _ _); [discriminate|]. intros x [= <-]. eexists. reflexivity.
  Qed.
  Lemma dlaplace_family : noise_family integer_value dlaplace_law.
  Proof.
    split.
    - intros s Hs [z ->]. exists (dlaplace_peak z). apply dlaplace_shape. apply le_IZR, Hs.
    - split; [|exact integer_ok]. eexists. apply int_mirror, dl_mirror.
  Qed.
End DLaplace.

(** ** Uniqueness of a distribution on the integers *)
Lemma int_const (H : Z -> R) : (forall k, H k = H (k - 1)%Z) -> forall a b, H a = H b.
Proof.
  intros S. assert (L : forall a b, (a <= b)%Z -> H a = H b).
  { intros a b L. apply Rle_antisym.
    - apply int_climb; [assumption | intros; rewrite (S k); lra].
    - assert (- H a <= - H b); [|lra]. apply (int_climb (fun k => - H k)); [assumption | intros; rewrite (S k); lra]. }
  intros a b. destruct (Z_le_gt_dec a b); [apply L; assumption | symmetry; apply L; lia].
Qed.
Lemma small_zero K : (forall e, 0 < e -> Rabs K <= e) -> K = 0.
Proof.
  intros H. destruct (Req_dec K 0) as [Z|N]; [assumption|]. apply Rabs_pos_lt in N. specialize (H (Rabs K / 2) ltac:(lra)). lra.
Qed.
Lemma cdf_low F F' : is_cdf F -> is_cdf F' -> forall e, 0 < e -> exists k, F (IZR k) < e /\ F' (IZR k) < e.
Proof.
  intros (_ & M & L & _) (_ & M' & L' & _) e He. destruct (L e He) as [x Hx]. destruct (L' e He) as [y Hy].
  exists (Rfloor (Rmin x y)). pose proof (Rfloor_spec (Rmin x y)) as S. pose proof (Rmin_l x y). pose proof (Rmin_r x y).
  pose proof (M (IZR (Rfloor (Rmin x y))) x ltac:(lra)). pose proof (M' (IZR (Rfloor (Rmin x y))) y ltac:(lra)). lra.
Qed.
Lemma cdf_high F F' : is_cdf F -> is_cdf F' -> forall e, 0 < e -> exists k, 1 - e < F (IZR k) /\ 1 - e < F' (IZR k).
Proof.
  intros (_ & M & _ & U) (_ & M' & _ & U') e He. destruct (U e He) as [x Hx]. destruct (U' e He) as [y Hy].
  exists (Rceil (Rmax x y)). pose proof (Rceil_spec (Rmax x y)) as S. pose proof (Rmax_l x y). pose proof (Rmax_r x y).
  pose proof (M x (IZR (Rceil (Rmax x y))) ltac:(lra)). pose proof (M' y (IZR (Rceil (Rmax x y))) ltac:(lra)). lra.
Qed.
Lemma integer_noise_unique w F F' : integer_noise w F -> integer_noise w F' -> forall x, F x = F' x.
Proof.
  intros (C & I & c & Hc & S) (C' & I' & c' & Hc' & S').
  assert (K : forall k k', c' * F (IZR k) - c * F' (IZR k) = c' * F (IZR k') - c * F' (IZR k')).
  { apply int_const. intros k. specialize (S k). specialize (S' k).
    assert (E : c' * (F (IZR k) - F (IZR (k - 1))) = c * (F' (IZR k) - F' (IZR (k - 1)))) by (rewrite S, S'; ring). lra. }
  assert (Z : forall k, c' * F (IZR k) - c * F' (IZR k) = 0).
  { intros k. apply small_zero. intros e He.
    assert (Hd : 0 < e / (c + c')) by (apply Rdiv_lt_0_compat; lra).
    destruct (cdf_low F F' C C' _ Hd) as (k' & H1 & H2). rewrite (K k k').
    destruct C as (B & _), C' as (B' & _). specialize (B (IZR k')). specialize (B' (IZR k')).
    assert (e = c * (e / (c + c')) + c' * (e / (c + c'))) by (field; lra). apply Rabs_le. nra. }
  assert (CC : c' - c = 0).
  { apply small_zero. intros e He.
    assert (Hd : 0 < e / (c + c')) by (apply Rdiv_lt_0_compat; lra).
    destruct (cdf_high F F' C C' _ Hd) as (k' & H1 & H2). specialize (Z k').
    destruct C as (B & _), C' as (B' & _). specialize (B (IZR k')). specialize (B' (IZR k')).
    assert (e = c * (e / (c + c')) + c' * (e / (c + c'))) by (field; lra).
    assert (E : c' - c = c' * (1 - F (IZR k')) - c * (1 - F' (IZR k'))) by lra.
    assert (0 <= c' * (1 - F (IZR k')) <= c' * (e / (c + c'))) by (split; [apply Rmult_le_pos | apply Rmult_le_compat_l]; lra).
    assert (0 <= c * (1 - F' (IZR k')) <= c * (e / (c + c'))) by (split; [apply Rmult_le_pos | apply Rmult_le_compat_l]; lra).
    rewrite E. apply Rabs_le. lra. }
  intros x. rewrite I, I'. specialize (Z (Rfloor x)). replace c' with c in Z by lra. apply (Rmult_eq_reg_l c); lra.
Qed.
Lemma dlaplace_noise a : 0 < a -> integer_noise (dlaplace_weights a) (dlaplace_law a).
Proof.
  intros Ha. split; [apply dl_is_cdf, Ha|]. split; [intros x; unfold dlaplace_law; rewrite Rfloor_IZR; reflexivity|].
  exists ((exp a - 1) / (exp a + 1)). split.
  - assert (1 < exp a) by (rewrite <- exp_0; apply exp_increasing, Ha). apply Rdiv_lt_0_compat; lra.
  - intros k. unfold dlaplace_law. rewrite !Rfloor_IZR. apply dl_step, Ha.
Qed.

(** ** Truncated discrete Gaussian *)
Lemma zrange_snoc n : forall a, zrange a (S n) = zrange a n ++ [(a + Z.of_nat n)%Z].
Proof.
  induction n as [|n IH]; intros a; [cbn; f_equal; lia|].
  change (zrange a (S (S n))) with (a :: zrange (a + 1) (S n)). rewrite IH. cbn [zrange app]. replace (a + 1 + Z.of_nat n)%Z with (a + Z.of_nat (S n))%Z by lia. reflexivity.
Qed.
Section DGauss.
  Variables (sigma : R) (T : Z).
  Hypotheses (Hsig : 0 < sigma) (HT : (0 <= T)%Z).
  Let w (k : Z) : R := exp (- (IZR k * IZR k) / (2 * (sigma * sigma))).
  Definition dg_sum (k : Z) : R := rsum w (zrange (- T) (Z.to_nat (k + T + 1))).
  Definition dg_G (k : Z) : R := dg_sum (Z.min T (Z.max (- T - 1) k)) / dg_sum T.
  Definition dgaussian_law (x : R) : R := dg_G (Rfloor x).
  Lemma dg_sum_step k : (- T <= k)%Z -> dg_sum k - dg_sum (k - 1) = w k.
  Proof.
    intros H. unfold dg_sum. replace (Z.to_nat (k + T + 1)) with (S (Z.to_nat (k - 1 + T + 1))) by lia.
    rewrite zrange_snoc, rsum_app. cbn [rsum]. replace (- T + Z.of_nat (Z.to_nat (k - 1 + T + 1)))%Z with k by lia. ring.
  Qed.
  Lemma dg_sum_0 : dg_sum (- T - 1) = 0.
  Proof. unfold dg_sum. replace (Z.to_nat (- T - 1 + T + 1)) with 0%nat by lia. reflexivity. Qed.
  Lemma dg_total : 0 < dg_sum T.
  Proof.
    unfold dg_sum. replace (Z.to_nat (T + T + 1)) with (S (Z.to_nat (T + T))) by lia. cbn [zrange rsum].
    assert (0 <= rsum w (zrange (- T + 1) (Z.to_nat (T + T)))) by (apply rsum_nonneg; intros; left; apply exp_pos).
    pose proof (exp_pos (- (IZR (- T) * IZR (- T)) / (2 * (sigma * sigma)))) as E. change (0 < w (- T)) in E. lra.
  Qed.
  Let p k := / dg_sum T * dgaussian_weights sigma T k.
  Lemma dg_pos k : 0 <= p k.
  Proof.
    unfold p, dgaussian_weights. apply Rmult_le_pos; [left; apply Rinv_0_lt_compat, dg_total|].
    destruct (Z.abs k <=? T)%Z; [left; apply exp_pos | lra].
  Qed.
  Lemma dg_step k : dg_G k - dg_G (k - 1) = p k.
  Proof.
    unfold dg_G, p, dgaussian_weights. pose proof dg_total. destruct (Z.leb_spec (Z.abs k) T).
    - rewrite !Z.max_r, !Z.min_r by lia. pose proof (dg_sum_step k ltac:(lia)) as S. fold (w k). rewrite <- S. field. lra.
    - destruct (Z_le_gt_dec k 0).
      + rewrite !Z.max_l by lia. unfold Rdiv. ring.
      + rewrite !Z.min_l by lia. unfold Rdiv. ring.
  Qed.
  Lemma dg_low : dg_G (- T - 1) = 0.
  Proof. unfold dg_G. rewrite Z.max_l, Z.min_r by lia. rewrite dg_sum_0. unfold Rdiv. ring. Qed.
  Lemma dg_high : dg_G T = 1.
  Proof. unfold dg_G. rewrite Z.max_r, Z.min_r by lia. pose proof dg_total. field. lra. Qed.
  Lemma dg_mono a b : (a <= b)%Z -> dg_G a <= dg_G b.
  Proof. intros L. apply int_climb; [assumption|]. intros k _. pose proof (dg_step k). pose proof (dg_pos k). lra. Qed.
  Lemma dg_is_cdf : is_cdf dgaussian_law.
  Proof.
    apply int_cdf.
    - intros k. split.
      + assert (E : dg_G (Z.min k (- T - 1)) = 0). { unfold dg_G. rewrite Z.max_l, Z.min_r by lia. rewrite dg_sum_0. unfold Rdiv. ring. }
        rewrite <- E. apply dg_mono. lia.
      + assert (E : dg_G (Z.max k T) = 1). { unfold dg_G. rewrite Z.max_r, Z.min_l by lia. pose proof dg_total. field. lra. }
        rewrite <- E. apply dg_mono. lia.
    - intros k. apply dg_mono. lia.
    - intros e He. exists (- T - 1)%Z. rewrite dg_low. assumption.
    - intros e He. exists T. rewrite dg_high. lra.
  Qed.
  Lemma dg_mirror k : dg_G k = 1 - dg_G (- k - 1).
  Proof.
    assert (S : forall k, dg_G k + dg_G (- k - 1) = dg_G (k - 1) + dg_G (- (k - 1) - 1)).
    { intros j. pose proof (dg_step j) as S1. pose proof (dg_step (- (j - 1) - 1)) as S2.
      assert (P : p j = p (- (j - 1) - 1)).
      { unfold p, dgaussian_weights. replace (- (j - 1) - 1)%Z with (- j)%Z by lia. rewrite Z.abs_opp, opp_IZR.
        replace (- IZR j * - IZR j) with (IZR j * IZR j) by ring. reflexivity. }
      replace (- (j - 1) - 1 - 1)%Z with (- j - 1)%Z in S2 by lia. lra. }
    pose proof (int_const (fun k => dg_G k + dg_G (- k - 1)) S k T) as E. cbn beta in E.
    rewrite dg_high, dg_low in E. lra.
  Qed.
  Lemma dgaussian_noise : integer_noise (dgaussian_weights sigma T) dgaussian_law.
  Proof.
    split; [apply dg_is_cdf|]. split; [intros x; unfold dgaussian_law; rewrite Rfloor_IZR; reflexivity|].
    exists (/ dg_sum T). split; [apply Rinv_0_lt_compat, dg_total|]. intros k. unfold dgaussian_law. rewrite !Rfloor_IZR. apply dg_step.
  Qed.
  Definition dg_point (s : Z) (l : R) : Z :=
    Rfloor (Rmin (IZR T) (Rmax (IZR (s - T - 1)) (1/2 * IZR s - l * (sigma * sigma) / IZR s))).
  Definition dgaussian_peak (s : Z) (l : R) : xr :=
    if (s =? 0)%Z then (if Rleb l 0 then PInf else MInf) else Fin (IZR (dg_point s l - s)).
  Lemma dg_point_le s l j : (0 < s)%Z -> (j <= dg_point s l)%Z <-> ((j <= T)%Z /\ ((j <= s - T - 1)%Z \/ l <= IZR s * (1/2 * IZR s - IZR j) / (sigma * sigma))).
  Proof.
    intros Hs. assert (Hs' : 0 < IZR s) by (apply IZR_lt, Hs). assert (0 < sigma * sigma) by nra.
    unfold dg_point. rewrite Rfloor_le_iff.
    assert (A : IZR j <= 1/2 * IZR s - l * (sigma * sigma) / IZR s <-> l <= IZR s * (1/2 * IZR s - IZR j) / (sigma * sigma)).
    { assert (E : l * (sigma * sigma) / IZR s <= 1/2 * IZR s - IZR j <-> l <= IZR s * (1/2 * IZR s - IZR j) / (sigma * sigma)); [|split; intros; [apply E; lra | apply E in H0; lra]].
      split; intros L.
      - apply (Rmult_le_reg_r (sigma * sigma)); [assumption|].
        replace (IZR s * (1/2 * IZR s - IZR j) / (sigma * sigma) * (sigma * sigma)) with (IZR s * (1/2 * IZR s - IZR j)) by (field; lra).
        replace (l * (sigma * sigma)) with (IZR s * (l * (sigma * sigma) / IZR s)) by (field; lra). apply Rmult_le_compat_l; lra.
      - apply (Rmult_le_reg_r (IZR s)); [assumption|].
        replace (l * (sigma * sigma) / IZR s * IZR s) with (l * (sigma * sigma)) by (field; lra).
        replace ((1/2 * IZR s - IZR j) * IZR s) with (IZR s * (1/2 * IZR s - IZR j) / (sigma * sigma) * (sigma * sigma)) by (field; lra).
        apply Rmult_le_compat_r; lra. }
    rewrite <- A. split.
    - intros L. split.
      + apply le_IZR. eapply Rle_trans; [exact L | apply Rmin_l].
      + assert (L2 : IZR j <= Rmax (IZR (s - T - 1)) (1/2 * IZR s - l * (sigma * sigma) / IZR s)) by (eapply Rle_trans; [exact L | apply Rmin_r]).
        unfold Rmax in L2. destruct (Rle_dec (IZR (s - T - 1)) (1/2 * IZR s - l * (sigma * sigma) / IZR s)); [right; assumption | left; apply le_IZR; assumption].
    - intros [L1 L2]. apply Rmin_glb; [apply IZR_le, L1|]. destruct L2 as [L2|L2].
      + eapply Rle_trans; [apply IZR_le, L2 | apply Rmax_l].
      + eapply Rle_trans; [exact L2 | apply Rmax_r].
  Qed.
  Lemma dg_ratio s k : - (IZR (k + s) * IZR (k + s)) / (2 * (sigma * sigma)) - - (IZR k * IZR k) / (2 * (sigma * sigma))
    = IZR s * (1/2 * IZR s - IZR (k + s)) / (sigma * sigma).
  Proof. rewrite plus_IZR. field. lra. Qed.
  Lemma dgaussian_shape s : (0 <= s)%Z -> shape dgaussian_law (IZR s) (dgaussian_peak s).
  Proof.
    intros Hs. split; [apply dg_is_cdf|]. split; [apply IZR_le, Hs|]. intros l. unfold dgaussian_law.
    assert (C : 0 <= / dg_sum T) by (left; apply Rinv_0_lt_compat, dg_total).
    apply (int_uni dg_G p); [apply dg_step | | | |]; unfold dgaussian_peak; destruct (Z.eqb_spec s 0) as [->|N].
    - destruct (Rleb l 0); discriminate.
    - discriminate.
    - intros k. rewrite Z.add_0_r. destruct (Rleb_spec l 0); [|discriminate]. intros _. pose proof (dg_pos k).
      assert (exp l <= 1) by (rewrite <- exp_0; apply exp_le; assumption). nra.
    - intros k H. apply xleb_fin in H. apply le_IZR in H. assert (H' : (k + s <= dg_point s l)%Z) by lia.
      apply dg_point_le in H'; [|lia]. unfold p, dgaussian_weights.
      destruct (Z.leb_spec (Z.abs k) T) as [K|K].
      + rewrite (proj2 (Z.leb_le _ _)) by lia. apply exp_ratio_ge; [assumption|]. rewrite dg_ratio. destruct H' as [_ [H'|H']]; [lia | assumption].
      + rewrite Rmult_0_r, Rmult_0_r. apply Rmult_le_pos; [assumption|]. destruct (Z.abs (k + s) <=? T)%Z; [left; apply exp_pos | lra].
    - intros k. rewrite Z.add_0_r. destruct (Rleb_spec l 0); [discriminate|]. intros _. pose proof (dg_pos k).
      assert (1 <= exp l) by (rewrite <- exp_0; apply exp_le; lra). nra.
    - intros k H. cbn in H. assert (H' : ~ (k + s <= dg_point s l)%Z).
      { intros L. rewrite Rleb_true in H; [discriminate|]. apply IZR_le. lia. }
      rewrite dg_point_le in H' by lia. unfold p, dgaussian_weights.
      destruct (Z.leb_spec (Z.abs (k + s)) T) as [K|K].
      + assert (Q : ~ ((k + s <= s - T - 1)%Z \/ l <= IZR s * (1/2 * IZR s - IZR (k + s)) / (sigma * sigma))) by (intros Q; apply H'; split; [lia | exact Q]).
        assert (K1 : (- T <= k)%Z) by (destruct (Z_lt_le_dec k (- T)); [exfalso; apply Q; left; lia | assumption]).
        rewrite (proj2 (Z.leb_le _ _)) by lia. apply exp_ratio_le; [assumption|]. rewrite dg_ratio.
        destruct (Rle_lt_dec l (IZR s * (1/2 * IZR s - IZR (k + s)) / (sigma * sigma))); [exfalso; apply Q; right; assumption | lra].
      + rewrite Rmult_0_r. apply Rmult_le_pos; [left; apply exp_pos|]. apply Rmult_le_pos; [assumption|].
        destruct (Z.abs k <=? T)%Z; [left; apply exp_pos | lra].
    - destruct (Rleb l 0); discriminate.
    - intros x [= <-]. eexists. reflexivity.
  Qed.
  Lemma dgaussian_family : noise_family integer_value dgaussian_law.
  Proof.
    split.
    - intros s Hs [z ->]. exists (dgaussian_peak z). apply dgaussian_shape. apply le_IZR, Hs.
    - split; [|exact integer_ok]. eexists. apply int_mirror, dg_mirror.
  Qed.
End DGauss.
