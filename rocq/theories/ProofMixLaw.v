(** The laws of a mixture of Gaussians. *)
From Coq Require Import Lra.
From Verif Require Import Base XReal Exn TypesAdjacency SpecDP SpecMech SpecMixture ModelMech ModelMixture ProofDP ProofPeak ProofNormal ProofGdpConv ProofGdp ProofMix.

Lemma mixed_cdf F ws : is_cdf F -> (forall w, In w ws -> 0 <= snd w) -> rsum snd ws = 1 -> is_cdf (mixed F ws).
Proof.
  intros (B & M & Lo & Up) Hw Hs.
  assert (BD : exists m, forall w, In w ws -> - m <= fst w <= m).
  { clear Hw Hs. induction ws as [|w ws (m & IH)]; [exists 0; intros ? []|]. exists (Rmax m (Rabs (fst w))). intros w' [<-|I].
    - pose proof (Rmax_r m (Rabs (fst w))). pose proof (Rle_abs (fst w)). pose proof (Rle_abs (- fst w)). rewrite Rabs_Ropp in *. lra.
    - pose proof (Rmax_l m (Rabs (fst w))). pose proof (IH w' I). lra. }
  assert (SUM : forall x y, (forall w, In w ws -> F (x - fst w) <= F y) -> mixed F ws x <= F y).
  { intros x y H. replace (F y) with (rsum (fun w => snd w * F y) ws) by (rewrite rsum_scal_r, Hs; ring). apply rsum_le. intros w I. apply Rmult_le_compat_l; [apply Hw, I | apply H, I]. }
  assert (SUM' : forall x y, (forall w, In w ws -> F y <= F (x - fst w)) -> F y <= mixed F ws x).
  { intros x y H. replace (F y) with (rsum (fun w => snd w * F y) ws) by (rewrite rsum_scal_r, Hs; ring). apply rsum_le. intros w I. apply Rmult_le_compat_l; [apply Hw, I | apply H, I]. }
  destruct BD as (m & BD). repeat split.
  - apply rsum_nonneg. intros w I. apply Rmult_le_pos; [apply Hw, I | apply B].
  - rewrite <- Hs. apply rsum_le. intros w I. pose proof (Hw w I). pose proof (B (x - fst w)). nra.
  - intros x y H. apply rsum_le. intros w I. apply Rmult_le_compat_l; [apply Hw, I | apply M; lra].
  - intros e He. destruct (Lo e He) as (x & Hx). exists (x - m). eapply Rle_lt_trans; [|exact Hx]. apply SUM. intros w I. apply M. pose proof (BD w I). lra.
  - intros e He. destruct (Up e He) as (x & Hx). exists (x + m). eapply Rlt_le_trans; [exact Hx|]. apply SUM'. intros w I. apply M. pose proof (BD w I). lra.
Qed.
Lemma minus_shift_sum (f : R * R -> R) comps : rsum f (minus_shift comps) = rsum (fun c => f (- fst c, snd c)) comps.
Proof. unfold minus_shift. apply rsum_map. Qed.

Lemma reduce_ln l a : logaddexp_reduce (a :: l) = ln (rsum exp (a :: l)).
Proof.
  cbn [logaddexp_reduce]. revert a. induction l as [|b l IH]; intros a; cbn [fold_left rsum].
  - rewrite Rplus_0_r, ln_exp. reflexivity.
  - rewrite IH. cbn [rsum]. rewrite exp_ln by (pose proof (exp_pos a); pose proof (exp_pos b); lra). f_equal. ring.
Qed.

Section Law.
  Context (Phi : R -> R) (HPhi : normal_cdf Phi) (sigma : R) (Hs : 0 < sigma) (comps : list (R * R)).
  Hypothesis ok : forall c, In c comps -> 0 <= fst c /\ 0 < snd c.
  Hypothesis total : rsum snd comps = 1.
  Notation v2 := (sigma * sigma).
  Definition law (x : R) : R := Phi (x / sigma).

  Lemma law_cdf : is_cdf law.
  Proof.
    destruct HPhi as ((B & M & Lo & Up) & _). unfold law. repeat split; try apply B.
    - intros x y H. apply M, Rmult_le_compat_r; [apply Rlt_le, Rinv_0_lt_compat, Hs | exact H].
    - intros e He. destruct (Lo e He) as (x & Hx). exists (x * sigma). replace (x * sigma / sigma) with x by (field; lra). exact Hx.
    - intros e He. destruct (Up e He) as (x & Hx). exists (x * sigma). replace (x * sigma / sigma) with x by (field; lra). exact Hx.
  Qed.
  Lemma single_cell mu a b : 0 <= mu -> a <= b ->
    exp (- mu * b - mu * mu / 2) * (Phi b - Phi a) <= Phi (b + mu) - Phi (a + mu) /\
    Phi (b + mu) - Phi (a + mu) <= exp (- mu * a - mu * mu / 2) * (Phi b - Phi a).
  Proof.
    intros Hm H. destruct (Rle_lt_or_eq_dec 0 mu Hm) as [P|<-].
    2:{ rewrite !Rplus_0_r. replace (- 0 * b - 0 * 0 / 2) with 0 by field. replace (- 0 * a - 0 * 0 / 2) with 0 by field. rewrite exp_0. lra. }
    pose proof HPhi as (_ & c & Hc & D).
    assert (T : forall x, thr mu 1 (exp (- mu * x - mu * mu / 2)) = x).
    { intros x. unfold thr. replace (exp (- mu * x - mu * mu / 2) / 1) with (exp (- mu * x - mu * mu / 2)) by field. rewrite ln_exp. field. lra. }
    split.
    - pose proof (test_up Phi c Hc D mu 1 (exp (- mu * b - mu * mu / 2)) a b P Rlt_0_1 (exp_pos _) H ltac:(rewrite T; lra)) as G. unfold test in G. lra.
    - pose proof (test_down Phi c Hc D mu 1 (exp (- mu * a - mu * mu / 2)) a b P Rlt_0_1 (exp_pos _) ltac:(rewrite T; lra) H) as G. unfold test in G. lra.
  Qed.
  Lemma law_cell s a b : 0 <= s -> a <= b ->
    exp (- (s * b + s * s / 2) / v2) * (law b - law a) <= law (b + s) - law (a + s) /\
    law (b + s) - law (a + s) <= exp (- (s * a + s * s / 2) / v2) * (law b - law a).
  Proof.
    intros H1 H2. unfold law. assert (A : forall x, (x + s) / sigma = x / sigma + s / sigma) by (intros; field; lra). rewrite !A.
    assert (B : forall x, - (s * x + s * s / 2) / v2 = - (s / sigma) * (x / sigma) - (s / sigma) * (s / sigma) / 2) by (intros; field; lra). rewrite !B.
    apply single_cell; [apply Rle_mult_inv_pos; assumption|]. apply Rmult_le_compat_r; [apply Rlt_le, Rinv_0_lt_compat, Hs | exact H2].
  Qed.

  (** the likelihood ratio *)
  Definition term (x : R) (c : R * R) : R := exp (- (fst c * x + fst c * fst c / 2) / v2).
  Definition rho (x : R) : R := rsum (fun c => snd c * term x c) comps.
  Lemma rho_pos x : 0 < rho x.
  Proof.
    destruct (Rle_lt_dec (rho x) 0) as [N|]; [|assumption]. exfalso.
    assert (rsum snd comps <= 0); [|lra]. unfold rho in N. clear total. induction comps as [|c l IH]; cbn [rsum] in *; [lra|].
    assert (0 <= rsum (fun c => snd c * term x c) l).
    { apply rsum_nonneg. intros c' I. apply Rmult_le_pos; [apply Rlt_le, ok; right; exact I | apply exp_pos_nonneg]. }
    destruct (ok c (or_introl eq_refl)) as [_ Pc]. pose proof (exp_pos (- (fst c * x + fst c * fst c / 2) / v2)). unfold term in *. nra.
  Qed.

  Definition mloss (adj : adjacency) (x : R) : R := match adj with REMOVE => ln (rho x) | ADD => - ln (rho (- x)) end.
  Lemma mx_loss_eq adj x : mx_loss sigma comps adj x = mloss adj x.
  Proof.
    assert (NE : comps <> []) by (intros ->; cbn in total; lra).
    assert (EX : forall f : R * R -> R, (forall c, In c comps -> exp (f c) = snd c * term (match adj with REMOVE => x | ADD => - x end) c) ->
       logaddexp_reduce (map f comps) = ln (rho (match adj with REMOVE => x | ADD => - x end))).
    { intros f Hf. unfold rho. destruct comps as [|c0 l]; [congruence|]. change (map f (c0 :: l)) with (f c0 :: map f l). rewrite reduce_ln. f_equal.
      change (f c0 :: map f l) with (map f (c0 :: l)). rewrite rsum_map. apply rsum_ext. exact Hf. }
    unfold mx_loss, mloss. destruct adj.
    - f_equal. apply EX. intros c I. destruct (ok c I) as [_ P]. unfold loss_constant, single_loss, term.
      rewrite <- (exp_ln (snd c) P) at 2. rewrite <- exp_plus. f_equal. field. lra.
    - apply EX. intros c I. destruct (ok c I) as [_ P]. unfold loss_constant, single_loss, term.
      rewrite <- (exp_ln (snd c) P) at 2. rewrite <- exp_plus. f_equal. field. lra.
  Qed.

  Definition upper adj := mixture_upper adj law comps.
  Definition lower adj := mixture_lower adj law comps.
  Lemma upper_eq adj x : upper adj x = match adj with REMOVE => rsum (fun c => snd c * law (x + fst c)) comps | ADD => law x end.
  Proof. destruct adj; cbn; [reflexivity|]. unfold mixed. rewrite minus_shift_sum. apply rsum_ext. intros c _. cbn [fst snd]. do 2 f_equal. ring. Qed.
  Lemma upper_cdf adj : is_cdf (upper adj).
  Proof.
    destruct adj; cbn; [apply law_cdf|]. apply mixed_cdf; [apply law_cdf | |].
    - intros w I. unfold minus_shift in I. apply in_map_iff in I as (c & <- & I). cbn. apply Rlt_le, ok, I.
    - rewrite minus_shift_sum. exact total.
  Qed.
  Lemma lower_cdf adj : is_cdf (lower adj).
  Proof. destruct adj; cbn; [|apply law_cdf]. apply mixed_cdf; [apply law_cdf | intros w I; apply Rlt_le, ok, I | exact total]. Qed.

  Lemma mix_ratio adj a b : a <= b ->
    exp (mloss adj b) * (lower adj b - lower adj a) <= upper adj b - upper adj a /\
    upper adj b - upper adj a <= exp (mloss adj a) * (lower adj b - lower adj a).
  Proof.
    intros H. rewrite !upper_eq. destruct adj; cbn [lower mloss mixture_lower].
    - (* ADD *)
      assert (DL : mixed law comps b - mixed law comps a = rsum (fun c => snd c * (law (b - fst c) - law (a - fst c))) comps).
      { unfold mixed. rewrite <- rsum_minus. apply rsum_ext. intros; ring. }
      assert (C : forall c, In c comps -> term (- a) c * (law b - law a) <= law (b - fst c) - law (a - fst c) /\ law (b - fst c) - law (a - fst c) <= term (- b) c * (law b - law a)).
      { intros c I. destruct (ok c I) as [S _]. destruct (law_cell (fst c) (a - fst c) (b - fst c) S ltac:(lra)) as [G1 G2].
        replace (b - fst c + fst c) with b in * by ring. replace (a - fst c + fst c) with a in * by ring.
        assert (T : forall x, term (- x) c * exp (- (fst c * (x - fst c) + fst c * fst c / 2) / v2) = 1).
        { intros x. unfold term. rewrite <- exp_plus, <- exp_0. f_equal. field. lra. }
        pose proof (T a) as Ta. pose proof (T b) as Tb. pose proof (exp_pos_nonneg (- (fst c * - a + fst c * fst c / 2) / v2)) as Pa. pose proof (exp_pos_nonneg (- (fst c * - b + fst c * fst c / 2) / v2)) as Pb.
        fold (term (- a) c) in Pa. fold (term (- b) c) in Pb. split.
        - apply (Rmult_le_compat_l _ _ _ Pa) in G2. rewrite <- Rmult_assoc, Ta in G2. lra.
        - apply (Rmult_le_compat_l _ _ _ Pb) in G1. rewrite <- Rmult_assoc, Tb in G1. lra. }
      assert (LO : rho (- a) * (law b - law a) <= mixed law comps b - mixed law comps a).
      { rewrite DL. unfold rho. rewrite <- rsum_scal_r. apply rsum_le. intros c I. rewrite Rmult_assoc. apply Rmult_le_compat_l; [apply Rlt_le, ok, I | apply C, I]. }
      assert (HI : mixed law comps b - mixed law comps a <= rho (- b) * (law b - law a)).
      { rewrite DL. unfold rho. rewrite <- rsum_scal_r. apply rsum_le. intros c I. rewrite Rmult_assoc. apply Rmult_le_compat_l; [apply Rlt_le, ok, I | apply C, I]. }
      rewrite !exp_Ropp, !exp_ln by apply rho_pos. pose proof (rho_pos (- a)) as Pa. pose proof (rho_pos (- b)) as Pb. split.
      + apply (Rmult_le_reg_l (rho (- b))); [exact Pb|]. rewrite <- Rmult_assoc, Rinv_r, Rmult_1_l by lra. exact HI.
      + apply (Rmult_le_reg_l (rho (- a))); [exact Pa|]. rewrite <- Rmult_assoc, Rinv_r, Rmult_1_l by lra. exact LO.
    - (* REMOVE *)
      rewrite !exp_ln by apply rho_pos. rewrite <- rsum_minus. unfold rho. rewrite <- !rsum_scal_r. split; apply rsum_le; intros c I; destruct (ok c I) as [S P]; destruct (law_cell (fst c) a b S H) as [G1 G2]; fold (term b c) in G1; fold (term a c) in G2.
      + rewrite Rmult_assoc, <- Rmult_minus_distr_l. apply Rmult_le_compat_l; lra.
      + rewrite Rmult_assoc, <- Rmult_minus_distr_l. apply Rmult_le_compat_l; lra.
  Qed.

  Context (smax : R) (Hmax : forall c, In c comps -> fst c <= smax).
  Lemma rho_slope a b : a <= b -> rho b <= rho a /\ rho a <= exp (smax / v2 * (b - a)) * rho b.
  Proof.
    intros H. assert (V : 0 < / v2) by (apply Rinv_0_lt_compat; nra). unfold rho. rewrite <- rsum_scal. split; apply rsum_le; intros c I; destruct (ok c I) as [S P].
    - apply Rmult_le_compat_l; [lra|]. apply exp_le, Rmult_le_compat_r; [lra|]. nra.
    - replace (exp (smax / v2 * (b - a)) * (snd c * term b c)) with (snd c * (exp (smax / v2 * (b - a)) * term b c)) by ring.
      apply Rmult_le_compat_l; [lra|]. unfold term. rewrite <- exp_plus. apply exp_le. unfold Rdiv. rewrite (Rmult_assoc smax), (Rmult_comm (/ v2)), <- (Rmult_assoc smax).
      rewrite <- Rmult_plus_distr_r. apply Rmult_le_compat_r; [lra|]. pose proof (Hmax c I). nra.
  Qed.
  Lemma smax_nonneg : 0 <= smax.
  Proof. destruct comps as [|c l]; [cbn in total; lra|]. destruct (ok c (or_introl eq_refl)). pose proof (Hmax c (or_introl eq_refl)). lra. Qed.
  Lemma mloss_slope adj a b : a <= b -> 0 <= mloss adj a - mloss adj b <= smax / v2 * (b - a).
  Proof.
    assert (K : forall a b, a <= b -> 0 <= ln (rho a) - ln (rho b) <= smax / v2 * (b - a)).
    { clear a b. intros a b H. destruct (rho_slope a b H) as [G1 G2]. pose proof (rho_pos a). pose proof (rho_pos b). split.
      - assert (ln (rho b) <= ln (rho a)) by (apply ln_le_mono; lra). lra.
      - apply ln_le_mono in G2; [|lra]. rewrite ln_mult, ln_exp in G2 by (try apply exp_pos; lra). lra. }
    intros H. destruct adj; cbn [mloss]; [|apply K, H]. pose proof (K (- b) (- a) ltac:(lra)). replace (- a - - b) with (b - a) in * by ring. lra.
  Qed.

  Lemma phi_const : exists c, 0 < c <= 1 /\ forall x, derivable_pt_lim Phi x (c * bell x).
  Proof.
    pose proof HPhi as (C & c & Hc & D). exists c. split; [split; [exact Hc|]|exact D].
    destruct (MVT_cor2 Phi (fun x => c * bell x) (-1) 1 ltac:(lra) (fun x _ => D x)) as (x & E & Hx).
    destruct C as (B & _). pose proof (B 1). pose proof (B (-1)).
    assert (1 / 2 <= bell x); [|nra]. unfold bell. apply Rle_trans with (exp (- (1/2))); [|apply exp_le; nra]. pose proof (exp_ineq1_le (- (1/2))). lra.
  Qed.
  Lemma law_lip a b : a <= b -> law b - law a <= (b - a) / sigma.
  Proof.
    intros H. destruct phi_const as (c & Hc & D). unfold law.
    assert (P : forall x y, x <= y -> Phi y - Phi x <= c * (y - x)).
    { intros x y K. destruct (Rle_lt_or_eq_dec x y K) as [K'|<-]; [|lra].
      destruct (MVT_cor2 Phi (fun z => c * bell z) x y K' (fun z _ => D z)) as (z & E & _). rewrite E.
      assert (bell z <= 1) by (unfold bell; rewrite <- exp_0; apply exp_le; nra). assert (c * bell z <= c * 1) by (apply Rmult_le_compat_l; lra). apply Rmult_le_compat_r; lra. }
    assert (HI : 0 < / sigma) by (apply Rinv_0_lt_compat, Hs).
    eapply Rle_trans; [apply P, Rmult_le_compat_r; lra|]. replace (b / sigma - a / sigma) with ((b - a) / sigma) by (field; lra).
    assert (0 <= (b - a) / sigma) by (apply Rmult_le_pos; lra). nra.
  Qed.
  Lemma upper_lip adj a b : a <= b -> upper adj b - upper adj a <= (b - a) / sigma.
  Proof.
    intros H. rewrite !upper_eq. destruct adj; [apply law_lip, H|]. rewrite <- rsum_minus.
    replace ((b - a) / sigma) with (rsum (fun c => snd c * ((b - a) / sigma)) comps) by (rewrite rsum_scal_r, total; ring).
    apply rsum_le. intros c I. rewrite <- Rmult_minus_distr_l. apply Rmult_le_compat_l; [apply Rlt_le, ok, I|].
    replace (b - a) with ((b + fst c) - (a + fst c)) by ring. apply law_lip. lra.
  Qed.
  Lemma upper_steep adj prec : steep (upper adj) (prec / sigma) prec.
  Proof.
    intros a b (H1 & H2). eapply Rle_trans; [apply upper_lip, H1|]. apply Rmult_le_compat_r; [apply Rlt_le, Rinv_0_lt_compat, Hs | lra].
  Qed.

  Lemma mix_cutoff adj l prec b0 b1 x : 0 <= prec -> b0 <= b1 <= b0 + prec -> mloss adj b1 <= l <= mloss adj b0 -> b1 - prec <= x <= b1 ->
    nearly_divergence (upper adj) (lower adj) l (gap (upper adj) (lower adj) (exp l) x) ((exp (smax / v2 * prec) - 1) * (prec / sigma)).
  Proof.
    intros. assert (0 <= smax / v2) by (apply Rle_mult_inv_pos; [apply smax_nonneg | nra]).
    apply (cutoff_near _ _ (mloss adj) (smax / v2) H3 (upper_cdf adj) (lower_cdf adj) (mix_ratio adj) (mloss_slope adj)) with (b0 := b0) (b1 := b1); try assumption.
    apply upper_steep.
  Qed.

  (** ** The limits of the privacy loss *)
  Lemma rho_limit x : 1 - positive_part comps <= rho x.
  Proof.
    unfold positive_part, rho. rewrite rsum_filter. rewrite <- total, <- rsum_minus. apply rsum_le. intros c I. destruct (ok c I) as [S P].
    pose proof (exp_pos (- (fst c * x + fst c * fst c / 2) / v2)). fold (term x c) in *. destruct (Rltb_spec 0 (fst c)); [nra|].
    assert (E : fst c = 0) by lra. assert (T : term x c = 1). { unfold term. rewrite E. replace (- (0 * x + 0 * 0 / 2) / v2) with 0 by (field; lra). apply exp_0. } rewrite T. lra.
  Qed.
End Law.
