(** The estimates built by connect-the-dots for the four classes of additive noise, at the
    multiples of the interval. *)
From Coq Require Import FunctionalExtensionality.
From Verif Require Import Base XReal Exn PyDict TypesAdjacency ModelPmf ModelPld ModelMake ModelMech SpecDP SpecPmf SpecPld SpecMech SpecClasses SpecMake SpecConstruct
  ProofDP ProofDict ProofPmf ProofPld ProofMake ProofDots ProofPeak ProofNoise ProofShape ProofShapeGauss ProofShapeInt ProofAdditive ProofClasses ProofMechTop
  ProofPldApi ProofDotsMech ProofBuckets ProofTails ProofTailClasses ProofConstruct ProofConstructTotal ProofNormal ProofConstructEx ProofTight.
Local Arguments Rltb : simpl never.
Local Arguments Rleb : simpl never.
Local Arguments Reqb : simpl never.

(** at the multiples of the interval the estimate is at most [r] above the divergence *)
Definition close (r disc : R) (p : pmf) (U L : R -> R) : Prop :=
  forall z d, divergence_is U L (IZR z * disc) d -> pmf_delta p (Fin (IZR z * disc)) <= d + r.

Section Close.
  Context (F : R -> R) (s : R) (pk : R -> xr) (cdf : xr -> R) (loss0 inv0 : adjacency -> xr -> res xr) (pt : adjacency -> R -> Prop) (Lf : R -> xr).
  Hypothesis HF : fits F s pk cdf inv0.
  Hypothesis HLo : loses s pk loss0 pt Lf.
  Context (q : R) (Hq : 0 < q <= 1) (adj : adjacency) (discrete : bool) (tail : res tail_pld) (bounds : res dots_bounds).
  Let m := additive s q adj cdf (loss0 adj) (inv0 adj) discrete tail bounds.
  Let U := upper_law adj F q s.
  Let L := lower_law adj F q s.
  Let p := peak adj q s pk.
  Context (disc : R) (Hd : 0 < disc) (HN : forall z, ~ near_limit adj q (IZR z * disc)).
  Context (r : R) (Hr : 0 <= r).

  Lemma grid_close eps ds pm : deltas_at m disc eps = Ok ds -> connect_dots disc eps ds = Ok pm ->
    (forall z, reached U L p disc r eps z) -> close r disc pm U L.
  Proof.
    intros HD HC HZ. destruct (law_curve U L (fun e => delta_at F s q adj e (p e))) as (h & PC & Hh).
    - apply (law_cdf _ _ _ _ _ HF q Hq adj).
    - apply (law_cdf _ _ _ _ _ HF q Hq adj).
    - apply (delta_at_peak _ _ _ _ _ HF q Hq adj).
    - assert (Hh' : forall e, h (exp e) = ad U L e (p e)).
      { intros e. symmetry. apply (Hh e). apply (delta_at_peak _ _ _ _ _ HF q Hq adj). }
      assert (ED : forall eps, deltas_at m disc eps = Ok (map (fun z => h (exp (IZR z * disc))) eps)).
      { clear - Hh' HN HF Hq. induction eps as [|z eps IH]; [reflexivity|]. cbn [deltas_at map]. unfold m at 1, additive. cbn [get_delta_for_epsilon].
        rewrite (get_delta_exact _ _ _ _ _ HF q Hq adj _ (HN z)). cbn [bind]. rewrite IH. cbn [bind]. rewrite Hh'. reflexivity. }
      rewrite ED in HD. injection HD as <-. intros z d Dz. rewrite (Hh _ _ Dz).
      apply (dots_tight U L (in_U _ _ _ _ _ HF q Hq adj) (in_L _ _ _ _ _ HF q Hq adj) p (in_HP _ _ _ _ _ HF q Hq adj) disc Hd h PC Hh' r eps pm z Hr HC (HZ z)).
  Qed.

  (** noise with real values *)
  Lemma real_close u l pm : discrete = false -> bounds = Ok (EpsilonBounds (Fin u) (Fin l)) ->
    (forall k, IZR k * disc <= l -> at_bottom U p disc r k) -> (forall k, u <= IZR k * disc -> at_top U L p disc r k) -> l <= u ->
    dots_pmf m disc = Ok pm -> close r disc pm U L.
  Proof.
    intros Ed Eb HB HT Hlu. unfold dots_pmf. unfold m at 1 2, additive. cbn [connect_dots_bounds is_discrete]. rewrite Ed, Eb. cbn [bind].
    rewrite !round_fin_eq by assumption. cbn [bind round_fn]. set (k := Rceil (u / disc)). set (k0 := Rfloor (l / disc)).
    destruct (deltas_at m disc _) as [ds|] eqn:ED; cbn [bind]; [|discriminate]. rewrite fixed_gap_eq by assumption. intros HC.
    apply (grid_close _ _ _ ED HC). intros z.
    assert (KK : (k0 <= k)%Z).
    { apply le_IZR. pose proof (Rceil_spec (u / disc)) as C. pose proof (Rfloor_spec (l / disc)) as G. fold k in C. fold k0 in G.
      pose proof (div_mono disc Hd _ _ Hlu). lra. }
    destruct (Z_lt_dec z k0) as [Z1|Z1].
    - right; right; left. exists k0. split; [apply zrange_In; lia|]. split; [assumption|]. apply HB, floor_below, Hd.
    - destruct (Z_lt_dec k z) as [Z2|Z2].
      + right; right; right. exists k. split; [apply zrange_In; lia|]. split; [assumption|]. apply HT, ceil_above, Hd.
      + left. apply zrange_In. lia.
  Qed.

  (** noise with integer values *)
  Lemma integer_close lo up pm : discrete = true -> bounds = Ok (PointBounds lo up) -> (lo <= up)%Z ->
    (forall l a, p l = Fin a -> int_pt a) ->
    (forall a k, privacy_loss m (Fin (IZR up)) = Ok (Fin a) -> IZR k * disc <= a -> at_bottom U p disc r k) ->
    (forall a k, privacy_loss m (Fin (IZR lo)) = Ok (Fin a) -> a <= IZR k * disc -> at_top U L p disc r k) ->
    dots_pmf m disc = Ok pm -> close r disc pm U L.
  Proof.
    intros Ed Eb Hlu PI HB HT. unfold dots_pmf. unfold m at 1 2, additive. cbn [connect_dots_bounds is_discrete]. rewrite Ed, Eb. cbn [bind].
    destruct (rounded_epsilons m disc up _ _) as [eps|] eqn:ER; cbn [bind]; [|discriminate].
    destruct (deltas_at m disc eps) as [ds|] eqn:ED; cbn [bind]; [|discriminate]. intros HC.
    apply (grid_close _ _ _ ED HC). apply (points_all U L p disc Hd m) with (lo := lo) (up := up); try assumption.
    - unfold m, additive. cbn [privacy_loss]. apply (loss_mono _ _ _ _ _ HLo q Hq adj).
    - intros x a l Hx Hl. assert (S : xltb (Fin a) (Fin l) = true) by (cbn; apply Rltb_true; assumption).
      pose proof (in_strict _ _ _ _ _ _ _ _ HF HLo q Hq adj discrete tail bounds _ _ l Hx S) as G. fold p in G.
      destruct (p l) as [b| | |] eqn:Ep; try discriminate; try reflexivity. apply PI in Ep. apply xleb_fin. rewrite Ep in G |- *. cbn [xltb] in G.
      destruct (Rltb_spec (IZR (Rfloor b)) (IZR (x + 1))) as [G'|]; [|discriminate]. apply lt_IZR in G'. apply IZR_le. lia.
    - intros x a z Hx Hl. apply (in_weak F s pk cdf loss0 inv0 pt Lf HLo q Hq adj discrete tail bounds _ _ _ Hx); [|apply HN].
      apply xleb_fin. assumption.
  Qed.

  (** all losses are at least [l], or at most [u]; [good] is the set of points of the noise *)
  Context (good : R -> Prop) (HG : forall v, exists x, good x /\ v < x) (HG' : forall v, exists x, good x /\ x < v).
  Lemma bottom_all l k : (forall x, good x -> exists a, privacy_loss m (Fin x) = Ok (Fin a) /\ l <= a) ->
    IZR k * disc <= l -> at_bottom U p disc r k.
  Proof.
    intros HA Hk. exists PInf. split; [|cbn; lra].
    assert (A : forall x, good x -> xleb (Fin x) (p (IZR k * disc)) = true).
    { intros x Gx. destruct (HA x Gx) as (a & Ea & La). apply (in_weak F s pk cdf loss0 inv0 pt Lf HLo q Hq adj discrete tail bounds _ _ _ Ea); [|apply HN].
      apply xleb_fin. lra. }
    destruct (p (IZR k * disc)) as [b| | |] eqn:E; try reflexivity.
    - destruct (HG b) as (x & Gx & Hx). specialize (A x Gx). apply xleb_fin in A. lra.
    - destruct (HG 0) as (x & Gx & _). specialize (A x Gx). discriminate.
    - destruct (HG 0) as (x & Gx & _). specialize (A x Gx). discriminate.
  Qed.
  Lemma top_all u k : (forall x, good x -> exists a, privacy_loss m (Fin x) = Ok (Fin a) /\ a <= u) ->
    u <= IZR k * disc -> at_top U L p disc r k.
  Proof.
    intros HA Hk. exists MInf. split; [discriminate|]. split; [|right; reflexivity]. intros l Hl.
    assert (A : forall x, good x -> xltb (p l) (Fin x) = true).
    { intros x Gx. destruct (HA x Gx) as (a & Ea & La). apply (in_strict _ _ _ _ _ _ _ _ HF HLo q Hq adj discrete tail bounds _ _ _ Ea).
      cbn. apply Rltb_true. lra. }
    destruct (p l) as [b| | |] eqn:E; try reflexivity.
    - destruct (HG' b) as (x & Gx & Hx). specialize (A x Gx). cbn in A. destruct (Rltb_spec b x); [lra | discriminate].
    - destruct (HG 0) as (x & Gx & _). specialize (A x Gx). discriminate.
    - destruct (HG 0) as (x & Gx & _). specialize (A x Gx). discriminate.
  Qed.
End Close.

(** ** Laplace *)
Lemma laplace_close b s q adj disc m pm : 0 < disc -> (forall z, ~ near_limit adj q (IZR z * disc)) ->
  LaplacePrivacyLoss b s q adj = Ok m -> dots_pmf m disc = Ok pm ->
  close 0 disc pm (upper_law adj (laplace_law b) q s) (lower_law adj (laplace_law b) q s).
Proof.
  intros Hd HN Hm. apply laplace_ok in Hm. destruct Hm as [(Hb & Hs & Hq) ->].
  pose proof (laplace_fits b s Hb Hs) as HF. pose proof (laplace_loses b s Hb Hs) as HL.
  set (Lf := fun x => Fin ((Rabs x - Rabs (x + s)) / b)) in *.
  assert (Hc : 0 < s / b) by (apply Rdiv_lt_0_compat; assumption).
  set (lo := match adj with ADD => 0 | REMOVE => - s end). set (hi := match adj with ADD => s | REMOVE => 0 end).
  assert (BB : forall x, exists a, base_loss s Lf adj x = Fin a /\ - (s / b) <= a <= s / b).
  { intros x. destruct adj; cbn [base_loss]; unfold Lf; eexists; (split; [reflexivity|]).
    - pose proof (abs_diff (x - s) s Hs). split; apply (Rmult_le_reg_r b); try assumption; unfold Rdiv; field_simplify; lra.
    - pose proof (abs_diff x s Hs). split; apply (Rmult_le_reg_r b); try assumption; unfold Rdiv; field_simplify; lra. }
  assert (B1 : base_loss s Lf adj lo = Fin (s / b)).
  { unfold lo, Lf. destruct adj; cbn [base_loss]; do 2 f_equal.
    - replace (0 - s + s) with 0 by ring. rewrite Rabs_R0, Rabs_left by lra. ring.
    - replace (- s + s) with 0 by ring. rewrite Rabs_R0, Rabs_left by lra. ring. }
  assert (B2 : base_loss s Lf adj hi = Fin (- (s / b))).
  { unfold hi, Lf. destruct adj; cbn [base_loss].
    - replace (s - s + s) with s by ring. replace (s - s) with 0 by ring. rewrite Rabs_R0, Rabs_right by lra. f_equal. field. lra.
    - replace (0 + s) with s by ring. rewrite Rabs_R0, Rabs_right by lra. f_equal. field. lra. }
  destruct (extremes s _ _ _ Lf HL q Hq adj (s / b) Hc (fun _ => True)) with (lo := lo) (hi := hi) as (l1 & l2 & L1 & L2 & NE & B); try exact Logic.I; try assumption.
  { intros x _. split; [exact Logic.I | apply BB]. }
  assert (LE : l2 <= l1) by (destruct (B lo Logic.I) as (a & _ & H); lra).
  assert (EB : laplace_bounds b s q adj = Ok (EpsilonBounds (Fin l1) (Fin l2))).
  { rewrite (loss_ok _ _ _ _ _ HL q Hq adj lo Logic.I), B1 in L1. rewrite (loss_ok _ _ _ _ _ HL q Hq adj hi Logic.I), B2 in L2.
    injection L1 as L1. injection L2 as L2. unfold laplace_bounds. rewrite <- L1, <- L2. unfold sub_loss.
    assert (S1 : forall c, ln (1 * exp c + (1 - 1)) = c) by (intros c; replace (1 * exp c + (1 - 1)) with (exp c) by ring; apply ln_exp).
    assert (S2 : forall c, 1 - q + q * exp c = q * exp c + (1 - q)) by (intros; ring).
    destruct (Reqb_spec q 1) as [->|Q].
    - destruct adj; cbn [xneg sub_remove]; rewrite !S1, ?Ropp_involutive; reflexivity.
    - rewrite !S2. destruct adj; cbn [xneg sub_remove]; rewrite ?Ropp_involutive; reflexivity. }
  assert (HG : forall v : R, exists x, True /\ v < x) by (intros v; exists (v + 1); split; [exact Logic.I | lra]).
  assert (HG' : forall v : R, exists x, True /\ x < v) by (intros v; exists (v - 1); split; [exact Logic.I | lra]).
  apply (real_close _ _ _ _ _ _ HF q Hq adj false (laplace_tail b s q adj) (laplace_bounds b s q adj) disc Hd HN 0 (Rle_refl 0) l1 l2); try assumption; try reflexivity.
  - intros k. apply (bottom_all (laplace_law b) s (laplace_peak b s) (laplace_cdf b) (laplace_loss0 b s) (laplace_inverse0 b s) _ _ HL q Hq adj false (laplace_tail b s q adj) (laplace_bounds b s q adj) disc HN 0 (Rle_refl 0) (fun _ => True) HG l2).
    intros x _. destruct (B x Logic.I) as (a & Ea & H). exists a. split; [exact Ea | lra].
  - intros k. apply (top_all _ _ _ _ _ _ _ _ HF HL q Hq adj false (laplace_tail b s q adj) (laplace_bounds b s q adj) disc 0 (fun _ => True) HG HG' l1).
    intros x _. destruct (B x Logic.I) as (a & Ea & H). exists a. split; [exact Ea | lra].
Qed.

(** ** Gaussian *)
Lemma gaussian_close Phi ppf sigma s lb q adj disc m pm : normal_cdf Phi -> quantile_of Phi ppf -> 0 < disc -> (forall z, ~ near_limit adj q (IZR z * disc)) ->
  GaussianPrivacyLoss Phi ppf sigma s true lb q adj = Ok m -> dots_pmf m disc = Ok pm ->
  close (exp lb / 2) disc pm (upper_law adj (gaussian_law Phi sigma) q s) (lower_law adj (gaussian_law Phi sigma) q s).
Proof.
  intros HP HQ Hd HN Hm. apply gaussian_ok in Hm. destruct Hm as [(Hb & Hs & Hq & Hlb) ->].
  pose proof (gaussian_fits Phi sigma s HP Hb Hs) as HF. pose proof (gaussian_loses sigma s Hb Hs) as HL.
  set (Lf := fun x => Fin (s * (- (1/2) * s - x) / (sigma * sigma))) in *.
  assert (TOT : forall x, exists a, a_privacy_loss q adj (gaussian_loss0 sigma s adj) (Fin x) = Ok (Fin a)).
  { intros x. rewrite (loss_ok _ _ _ _ _ HL q Hq adj x Logic.I).
    assert (exists a, base_loss s Lf adj x = Fin a) as [a ->] by (destruct adj; eexists; reflexivity).
    destruct (sub_loss_fin adj q a) as [c ->]. exists c. reflexivity. }
  assert (XB : 0 < exp lb <= 1) by (split; [apply exp_pos | apply Rle_trans with (exp 0); [apply exp_le; assumption | rewrite exp_0; lra]]).
  assert (NEG : sigma * ppf (1/2 * exp lb) <= 0).
  { assert (ppf (1/2 * exp lb) <= 0) by (apply (quantile_neg Phi); [assumption | assumption | lra]). nra. }
  set (l0 := sigma * ppf (1/2 * exp lb)) in *.
  assert (FL : gaussian_law Phi sigma l0 = exp lb / 2).
  { unfold gaussian_law, l0. replace (sigma * ppf (1/2 * exp lb) / sigma) with (ppf (1/2 * exp lb)) by (field; lra). rewrite HQ by lra. lra. }
  assert (FR : gaussian_law Phi sigma (- l0) = 1 - exp lb / 2).
  { unfold gaussian_law in *. replace (- l0 / sigma) with (- (l0 / sigma)) by (field; lra). rewrite (normal_mirror Phi HP), Ropp_involutive, FL. reflexivity. }
  assert (MO : forall x y, x <= y -> gaussian_law Phi sigma x <= gaussian_law Phi sigma y).
  { pose proof (in_U _ _ _ _ _ HF q Hq ADD) as (_ & M & _). exact M. }
  set (lo := match adj with ADD => l0 | REMOVE => l0 - s end). set (hi := match adj with ADD => - l0 + s | REMOVE => - l0 end).
  assert (ET : (match adj with ADD => (l0, - l0 + s) | REMOVE => (l0 - s, - l0) end) = (lo, hi)) by (destruct adj; reflexivity).
  destruct (TOT lo) as [l1 L1]. destruct (TOT hi) as [l2 L2].
  assert (LH : lo <= hi) by (unfold lo, hi; destruct adj; lra).
  assert (LE : l2 <= l1) by (apply xleb_fin; apply (loss_mono _ _ _ _ _ HL q Hq adj lo hi (Fin l1) (Fin l2) L1 L2 LH)).
  assert (EB : gaussian_bounds Phi ppf sigma s true lb q adj = Ok (EpsilonBounds (Fin l1) (Fin l2))).
  { unfold gaussian_bounds, gaussian_tail. fold l0. rewrite ET. unfold gaussian_privacy_loss. rewrite L2. cbn [bind lower_x_truncation upper_x_truncation].
    rewrite L1. cbn [bind]. rewrite L2. reflexivity. }
  set (tl := gaussian_tail Phi ppf sigma s true lb q adj). set (bd := gaussian_bounds Phi ppf sigma s true lb q adj) in *.
  apply (real_close _ _ _ _ (gaussian_loss0 sigma s) _ HF q Hq adj false tl bd disc Hd HN (exp lb / 2) ltac:(lra) l1 l2); try assumption; try reflexivity.
  - intros k Hk. exists (Fin hi). split.
    + apply (in_weak (gaussian_law Phi sigma) s (gaussian_peak sigma s) (gaussian_cdf Phi sigma) (gaussian_loss0 sigma s) (gaussian_inverse0 sigma s) _ _ HL q Hq adj false tl bd _ _ _ L2); [|apply HN].
      apply xleb_fin. assumption.
    + cbn [at_end]. unfold hi. destruct adj; cbn [upper_law].
      * pose proof (MO (- l0) (- l0 + s) ltac:(lra)). lra.
      * unfold remove_upper, sampled. pose proof (MO (- l0) (- l0 + s) ltac:(lra)) as M. rewrite FR in *.
        pose proof (Rmult_le_compat_l q _ _ (Rlt_le _ _ (proj1 Hq)) M). lra.
  - intros k Hk. exists (Fin lo). split; [discriminate|]. split.
    + intros l Hl. assert (S : xltb (Fin l1) (Fin l) = true) by (cbn; apply Rltb_true; lra).
      apply xltb_le, (in_strict _ _ _ _ _ _ _ _ HF HL q Hq adj false tl bd _ _ _ L1 S).
    + left. cbn [at_end]. unfold lo. destruct adj; cbn [upper_law].
      * lra.
      * unfold remove_upper, sampled. pose proof (MO (l0 - s) l0 ltac:(lra)) as M. replace (l0 - s + s) with l0 by ring. rewrite FL in *.
        pose proof (Rmult_le_compat_l (1 - q) _ _ ltac:(lra) M). lra.
Qed.

(** ** Discrete Laplace *)
Lemma dlaplace_close a s q adj disc m pm : 0 < disc -> (forall z, ~ near_limit adj q (IZR z * disc)) ->
  DiscreteLaplacePrivacyLoss a s q adj = Ok m -> dots_pmf m disc = Ok pm ->
  close 0 disc pm (upper_law adj (dlaplace_law a) q (IZR s)) (lower_law adj (dlaplace_law a) q (IZR s)).
Proof.
  intros Hd HN Hm. apply dlaplace_ok in Hm. destruct Hm as [(Ha & Hs & Hq) ->].
  pose proof (dlaplace_fits a s Ha Hs) as HF. pose proof (dlaplace_loses a s Ha Hs) as HL. pose proof (IZR_lt _ _ Hs) as Hs'.
  set (Lf := fun x => Fin ((Rabs x - Rabs (x + IZR s)) * a)) in *.
  assert (Hc : 0 < IZR s * a) by (apply Rmult_lt_0_compat; assumption).
  set (lo := match adj with ADD => 0 | REMOVE => - s end%Z). set (hi := match adj with ADD => s | REMOVE => 0 end%Z).
  assert (PI : forall l b, peak adj q (IZR s) (dlaplace_peak a s) l = Fin b -> int_pt b).
  { apply peak_int. intros l b. unfold dlaplace_peak. destruct (Rltb _ _); [discriminate|]. destruct (Rleb _ _); [discriminate|]. intros [= <-]. apply int_IZR. }
  destruct (extremes (IZR s) _ _ _ Lf HL q Hq adj (IZR s * a) Hc int_pt) with (lo := IZR lo) (hi := IZR hi) as (l1 & l2 & L1 & L2 & NE & B); try apply int_IZR.
  { intros x Ix. split; [exact Ix|]. destruct adj; cbn [base_loss]; unfold Lf; eexists; (split; [reflexivity|]).
    - pose proof (abs_diff (x - IZR s) (IZR s) Hs'). nra.
    - pose proof (abs_diff x (IZR s) Hs'). nra. }
  { unfold lo, Lf. destruct adj; cbn [base_loss]; do 2 f_equal.
    - replace (0 - IZR s + IZR s) with 0 by ring. rewrite Rabs_R0, Rabs_left by lra. ring.
    - rewrite opp_IZR. replace (- IZR s + IZR s) with 0 by ring. rewrite Rabs_R0, Rabs_left by lra. ring. }
  { unfold hi, Lf. destruct adj; cbn [base_loss].
    - replace (IZR s - IZR s + IZR s) with (IZR s) by ring. replace (IZR s - IZR s) with 0 by ring.
      rewrite Rabs_R0, Rabs_right by lra. f_equal. ring.
    - replace (0 + IZR s) with (IZR s) by ring. rewrite Rabs_R0, Rabs_right by lra. f_equal. ring. }
  set (tl := dlaplace_tail a s q adj). set (bd := dlaplace_bounds s adj).
  assert (EB : bd = Ok (PointBounds lo hi)) by (unfold bd, dlaplace_bounds, lo, hi; destruct adj; reflexivity).
  assert (HG : forall v : R, exists x, int_pt x /\ v < x).
  { intros v. exists (IZR (Rfloor v + 1)). split; [apply int_IZR|]. rewrite plus_IZR. pose proof (Rfloor_spec v). lra. }
  assert (HG' : forall v : R, exists x, int_pt x /\ x < v).
  { intros v. exists (IZR (Rfloor v - 1)). split; [apply int_IZR|]. rewrite minus_IZR. pose proof (Rfloor_spec v). lra. }
  apply (integer_close _ _ _ _ _ _ _ _ HF HL q Hq adj true tl bd disc Hd HN 0 (Rle_refl 0) lo hi); try assumption; try reflexivity.
  - unfold lo, hi. destruct adj; lia.
  - intros c k Ec. assert (E : Ok (Fin c) = Ok (Fin l2)) by (rewrite <- L2; symmetry; exact Ec). injection E as ->.
    apply (bottom_all (dlaplace_law a) (IZR s) (dlaplace_peak a s) (dlaplace_cdf a) (dlaplace_loss0 a s) (dlaplace_inverse0 a s) _ _ HL q Hq adj true tl bd disc HN 0 (Rle_refl 0) int_pt HG l2).
    intros x Ix. destruct (B x Ix) as (b & Eb & H). exists b. split; [exact Eb | lra].
  - intros c k Ec. assert (E : Ok (Fin c) = Ok (Fin l1)) by (rewrite <- L1; symmetry; exact Ec). injection E as ->.
    apply (top_all _ _ _ _ _ _ _ _ HF HL q Hq adj true tl bd disc 0 int_pt HG HG' l1).
    intros x Ix. destruct (B x Ix) as (b & Eb & H). exists b. split; [exact Eb | lra].
Qed.

(** ** Discrete Gaussian *)
Lemma dgauss_close sigma s T q adj disc m pm : 0 < disc -> (forall z, ~ near_limit adj q (IZR z * disc)) ->
  DiscreteGaussianPrivacyLoss sigma s T q adj = Ok m -> dots_pmf m disc = Ok pm ->
  close 0 disc pm (upper_law adj (dgaussian_law sigma T) q (IZR s)) (lower_law adj (dgaussian_law sigma T) q (IZR s)).
Proof.
  intros Hd HN Hm. apply dgauss_ok in Hm. destruct Hm as [(Hb & Hs & HT & Hq) ->]. assert (HT' : (0 <= T)%Z) by lia.
  pose proof (dgauss_fits sigma s T Hb Hs HT') as HF. pose proof (dgauss_loses sigma s T Hb Hs HT) as HL.
  set (F := dgaussian_law sigma T) in *. assert (CD : is_cdf F) by (apply dg_is_cdf; assumption).
  assert (F0 : forall z, (z <= - T - 1)%Z -> F (IZR z) = 0).
  { intros z Hz. destruct CD as (C1 & C2 & _). assert (F (IZR (- T - 1)) = 0) as E0.
    { unfold F, dgaussian_law. rewrite Rfloor_IZR. apply dg_low; assumption. }
    pose proof (C2 _ _ (IZR_le _ _ Hz)). pose proof (C1 (IZR z)). lra. }
  assert (F1 : forall z, (T <= z)%Z -> F (IZR z) = 1).
  { intros z Hz. destruct CD as (C1 & C2 & _). assert (F (IZR T) = 1) as E1.
    { unfold F, dgaussian_law. rewrite Rfloor_IZR. apply dg_high; assumption. }
    pose proof (C2 _ _ (IZR_le _ _ Hz)). pose proof (C1 (IZR z)). lra. }
  destruct (dgauss_truncation s T q adj) as [lo hi] eqn:ET.
  assert (D : (lo <= hi)%Z /\ at_end (lower_law adj F q (IZR s)) (Fin (IZR (lo - 1))) = 0 /\ at_end (upper_law adj F q (IZR s)) (Fin (IZR hi)) = 1).
  { unfold dgauss_truncation in ET. destruct adj; cbn [upper_law lower_law at_end]; unfold add_lower, remove_upper, sampled;
      destruct (Reqb_spec q 1) as [->|Nq]; injection ET as <- <-;
      repeat match goal with |- context[IZR ?u - IZR s] => rewrite <- (minus_IZR u s) | |- context[IZR ?u + IZR s] => rewrite <- (plus_IZR u s) end.
    - split; [lia|]. split; [|apply F1; lia]. rewrite (F0 (s - T - 1 - s)%Z) by lia. ring.
    - split; [lia|]. split; [|apply F1; lia]. rewrite !F0 by lia. ring.
    - split; [lia|]. split; [apply F0; lia|]. rewrite (F1 (T - s + s)%Z) by lia. ring.
    - split; [lia|]. split; [apply F0; lia|]. rewrite !F1 by lia. ring. }
  destruct D as (D1 & D2 & D3).
  set (tl := dgauss_tail sigma s T q adj). set (bd := dgauss_bounds s T q adj).
  assert (EB : bd = Ok (PointBounds lo hi)) by (unfold bd, dgauss_bounds; rewrite ET; reflexivity).
  assert (PI : forall l b, peak adj q (IZR s) (dgaussian_peak sigma T s) l = Fin b -> int_pt b).
  { apply peak_int. intros l b. unfold dgaussian_peak. rewrite (proj2 (Z.eqb_neq s 0)) by lia. intros [= <-]. apply int_IZR. }
  apply (integer_close _ _ _ _ _ _ _ _ HF HL q Hq adj true tl bd disc Hd HN 0 (Rle_refl 0) lo hi); try assumption; try reflexivity.
  - intros c k Ec Hk. exists (Fin (IZR hi)). split; [|rewrite D3; lra].
    apply (in_weak F (IZR s) (dgaussian_peak sigma T s) (dgauss_cdf sigma T) (dgauss_loss0 sigma s T) (dgauss_inverse0 sigma s T) _ _ HL q Hq adj true tl bd _ _ _ Ec); [|apply HN].
    apply xleb_fin. assumption.
  - intros c k Ec Hk. exists (Fin (IZR (lo - 1))). split; [discriminate|]. split; [|right; exact D2].
    intros l Hl. assert (S : xltb (Fin c) (Fin l) = true) by (cbn; apply Rltb_true; lra).
    pose proof (in_strict _ _ _ _ _ _ _ _ HF HL q Hq adj true tl bd _ _ l Ec S) as G.
    destruct (peak adj q (IZR s) (dgaussian_peak sigma T s) l) as [b| | |] eqn:Ep; try discriminate; try reflexivity. apply PI in Ep. apply xleb_fin. rewrite Ep in G |- *. cbn [xltb] in G.
    destruct (Rltb_spec (IZR (Rfloor b)) (IZR lo)) as [G'|]; [|discriminate]. apply lt_IZR in G'. apply IZR_le. lia.
Qed.

(** ** the privacy loss distributions *)
Lemma pld_close r cls ok F f s q disc D : 0 <= r -> 0 < disc -> grid_clear disc q ->
  (forall adj m, cls adj = Ok m -> additive_noise m ok F f s q adj) ->
  (forall adj m p, cls adj = Ok m -> dots_pmf m disc = Ok p -> close r disc p (upper_law adj F q s) (lower_law adj F q s)) ->
  subsampled_pld (fun adj => let? m := cls adj in dots_pmf m disc) q = Ok D ->
  forall z, exists d, worst_delta ok F q s (IZR z * disc) d /\
    d <= pld_delta D (Fin (IZR z * disc)) <= d + r.
Proof.
  intros Hr Hd HG HC HB. unfold subsampled_pld. destruct (cls REMOVE) as [mr|] eqn:Er; cbn [bind]; [|discriminate].
  destruct (dots_pmf mr disc) as [pr|] eqn:Br; cbn [bind]; [|discriminate]. pose proof (HC _ _ Er) as Nr.
  pose proof (HB _ _ _ Er Br) as Cr. destruct (dots_above mr ok F f s q REMOVE disc pr Hd Nr (HG REMOVE) Br) as [_ Ar].
  destruct (additive_instance _ _ _ _ _ _ _ Nr) as [Hq Hs Ho Hf (pk & cdf & loss0 & inv0 & pt & L & dc & tail & bounds & E & HF & _)].
  pose proof (fun eps => delta_at_peak _ _ _ _ _ HF q Hq REMOVE eps) as DR.
  pose proof (fun eps => delta_at_peak _ _ _ _ _ HF q Hq ADD eps) as DA.
  set (dr := fun eps => delta_at F s q REMOVE eps (peak REMOVE q s pk eps)) in *.
  set (da := fun eps => delta_at F s q ADD eps (peak ADD q s pk eps)) in *.
  assert (BR : forall eps E, noisy_query ok F q s E -> dp E eps (dr eps) /\ dp (swap E) eps (da eps)).
  { intros eps E0 HE. apply (noisy_query_bounded ok F Hf q s Hq (Rlt_le _ _ Hs) Ho E0 eps _ _ HE (DR eps) (DA eps)). }
  assert (XR : forall eps, exists E, noisy_query ok F q s E /\ hockey_stick E eps = dr eps).
  { intros eps. destruct (DR eps) as [_ (cuts & SC & EQ)]. eexists. split; [apply (extreme_remove ok F q s cuts Hf Ho Hs SC) | exact EQ]. }
  destruct (Reqb_spec q 1) as [Q|Q].
  - intros [= <-] z. set (eps := IZR z * disc). exists (dr eps). split; [split|].
    + intros E0 HE. destruct (BR eps E0 HE) as [B1 B2]. split; [exact B1|].
      replace (dr eps) with (da eps); [exact B2|]. unfold da, dr. subst q. rewrite !peak_1, delta_at_add, delta_at_remove.
      replace (xadd (xadd (pk eps) (Fin s)) (Fin (- s))) with (pk eps); [ring|].
      destruct (pk eps) as [a| | |]; cbn; try reflexivity. f_equal. ring.
    + destruct (XR eps) as (E0 & HE & EQ). exists E0. split; [exact HE | left; exact EQ].
    + change (pld_delta (new_pld pr None) (Fin eps)) with (pmf_delta pr (Fin eps)). split; [apply (Ar eps _ (DR eps)) | apply (Cr z _ (DR eps))].
  - destruct (cls ADD) as [ma|] eqn:Ea; cbn [bind]; [|discriminate]. destruct (dots_pmf ma disc) as [pa|] eqn:Ba; cbn [bind]; [|discriminate].
    pose proof (HC _ _ Ea) as Na. pose proof (HB _ _ _ Ea Ba) as Ca. destruct (dots_above ma ok F f s q ADD disc pa Hd Na (HG ADD) Ba) as [_ Aa].
    intros [= <-] z. set (eps := IZR z * disc). exists (Rmax (dr eps) (da eps)). split; [split|].
    + intros E0 HE. destruct (BR eps E0 HE) as [B1 B2]. split; intros S.
      * eapply Rle_trans; [apply B1|]. apply Rplus_le_compat_l, Rmax_l.
      * eapply Rle_trans; [apply B2|]. apply Rplus_le_compat_l, Rmax_r.
    + unfold Rmax. destruct (Rle_dec (dr eps) (da eps)) as [G|G].
      * destruct (DA eps) as [_ (cuts & SC & EQ)]. eexists. split; [apply (extreme_add ok F q s cuts Hf Ho Hs SC)|]. right. exact EQ.
      * destruct (XR eps) as (E0 & HE & EQ). exists E0. split; [exact HE | left; exact EQ].
    + change (pld_delta (new_pld pr (Some pa)) (Fin eps)) with (Rmax (pmf_delta pr (Fin eps)) (pmf_delta pa (Fin eps))).
      pose proof (Ar eps _ (DR eps)) as A1. pose proof (Cr z _ (DR eps)) as C1. pose proof (Aa eps _ (DA eps)) as A2. pose proof (Ca z _ (DA eps)) as C2.
      fold eps in C1, C2. fold (dr eps) in A1, C1. fold (da eps) in A2, C2. split.
      * apply Rmax_lub; eapply Rle_trans; [exact A1 | apply Rmax_l | exact A2 | apply Rmax_r].
      * pose proof (Rmax_l (dr eps) (da eps)). pose proof (Rmax_r (dr eps) (da eps)). apply Rmax_lub; lra.
Qed.
Lemma dots_pld fuel (cls : adjacency -> res monotone) disc q :
  subsampled_pld (fun adj => let? m := cls adj in monotone_pmf fuel m true disc true) q =
  subsampled_pld (fun adj => let? m := cls adj in dots_pmf m disc) q.
Proof. reflexivity. Qed.

(** between the multiples *)
Lemma worst_exists m ok F f s q eps : additive_noise m ok F f s q REMOVE -> exists d, worst_delta ok F q s eps d.
Proof.
  intros Nr. destruct (additive_instance _ _ _ _ _ _ _ Nr) as [Hq Hs Ho Hf (pk & cdf & loss0 & inv0 & pt & L & dc & tail & bounds & E & HF & _)].
  pose proof (delta_at_peak _ _ _ _ _ HF q Hq REMOVE eps) as DR. pose proof (delta_at_peak _ _ _ _ _ HF q Hq ADD eps) as DA.
  set (dr := delta_at F s q REMOVE eps (peak REMOVE q s pk eps)) in *. set (da := delta_at F s q ADD eps (peak ADD q s pk eps)) in *.
  exists (Rmax dr da). split.
  - intros E0 HE. destruct (noisy_query_bounded ok F Hf q s Hq (Rlt_le _ _ Hs) Ho E0 eps _ _ HE DR DA) as (_ & B1 & B2). split; intros S.
    + eapply Rle_trans; [apply B1|]. apply Rplus_le_compat_l, Rmax_l.
    + eapply Rle_trans; [apply B2|]. apply Rplus_le_compat_l, Rmax_r.
  - unfold Rmax. destruct (Rle_dec dr da) as [G|G].
    + destruct DA as [_ (cuts & SC & EQ)]. eexists. split; [apply (extreme_add ok F q s cuts Hf Ho Hs SC)|]. right. exact EQ.
    + destruct DR as [_ (cuts & SC & EQ)]. eexists. split; [apply (extreme_remove ok F q s cuts Hf Ho Hs SC) | left; exact EQ].
Qed.
(** how fast a divergence falls *)
Lemma hockey_slow E e1 e : valid E -> e1 <= e -> hockey_stick E e1 <= hockey_stick E e + (exp (e - e1) - 1).
Proof.
  intros (N & S1 & _) He. unfold hockey_stick.
  assert (X : 1 <= exp (e - e1)) by (apply Rle_trans with (exp 0); [rewrite exp_0; lra | apply exp_le; lra]).
  set (t := exp (e - e1)) in *. assert (ET : exp e = t * exp e1) by (unfold t; rewrite <- exp_plus; f_equal; ring).
  apply Rle_trans with (rsum (fun a => pos (prP E a - exp e * prQ E a) + (t - 1) * prP E a) (outs E)).
  - apply rsum_le. intros a Ha. destruct (N a Ha) as [P Q]. rewrite ET. pose proof (exp_pos e1) as X1.
    set (x := prP E a) in *. set (y := exp e1 * prQ E a). replace (t * exp e1 * prQ E a) with (t * y) by (unfold y; ring).
    assert (0 <= y) by (apply Rmult_le_pos; lra). rewrite (pos_max (x - y)), (pos_max (x - t * y)).
    pose proof (Rmax_l 0 (x - t * y)). pose proof (Rmax_r 0 (x - t * y)). assert (0 <= (t - 1) * x) by (apply Rmult_le_pos; lra). apply Rmax_lub; [lra|].
    destruct (Rle_dec x y) as [C|C]; [lra|]. assert ((t - 1) * y <= (t - 1) * x) by (apply Rmult_le_compat_l; lra). lra.
  - rewrite rsum_plus, rsum_scal, S1. lra.
Qed.
Lemma floor_grid disc eps : 0 < disc -> IZR (Rfloor (eps / disc)) * disc <= eps < IZR (Rfloor (eps / disc)) * disc + disc.
Proof.
  intros Hd. pose proof (Rfloor_spec (eps / disc)) as [A B]. assert (E : eps / disc * disc = eps) by (field; lra). split.
  - rewrite <- E at 2. apply Rmult_le_compat_r; lra.
  - rewrite <- E at 1. replace (IZR (Rfloor (eps / disc)) * disc + disc) with ((IZR (Rfloor (eps / disc)) + 1) * disc) by ring. apply Rmult_lt_compat_r; lra.
Qed.
Lemma worst_slow ok F q s e1 e d1 d : (forall E, noisy_query ok F q s E -> valid E /\ valid (swap E)) -> e1 <= e ->
  worst_delta ok F q s e1 d1 -> worst_delta ok F q s e d -> d1 <= d + (exp (e - e1) - 1).
Proof.
  intros HV He (_ & E & HE & H) (B & _). destruct (HV E HE) as [V1 V2]. destruct (B E HE) as [B1 B2]. apply dp_iff_hockey in B1, B2.
  destruct H as [<- | <-].
  - pose proof (hockey_slow E e1 e V1 He). lra.
  - pose proof (hockey_slow (swap E) e1 e V2 He). lra.
Qed.
Lemma worst_le ok F q s e d D : (forall E, noisy_query ok F q s E -> pld_bounds D E) -> sound_pld D -> worst_delta ok F q s e d -> d <= pld_delta D (Fin e).
Proof.
  intros HB HS (_ & E & HE & H). destruct (pld_delta_sound D E e HS (HB E HE)) as [D1 D2]. apply dp_iff_hockey in D1, D2. destruct H as [<-|<-]; assumption.
Qed.
Lemma everywhere r ok F q s disc D : 0 < disc -> sound_pld D -> (forall E, noisy_query ok F q s E -> pld_bounds D E) ->
  (forall eps, exists d, worst_delta ok F q s eps d) ->
  (forall z, exists d, worst_delta ok F q s (IZR z * disc) d /\ pld_delta D (Fin (IZR z * disc)) <= d + r) ->
  forall eps, exists d, worst_delta ok F q s eps d /\ d <= pld_delta D (Fin eps) <= d + (exp disc - 1) + r.
Proof.
  intros Hd HS HB HW HZ eps. destruct (HW eps) as [d W]. exists d. split; [exact W|]. split; [apply (worst_le _ _ _ _ _ _ _ HB HS W)|].
  pose proof (floor_grid disc eps Hd) as [G1 G2]. set (z := Rfloor (eps / disc)) in *. destruct (HZ z) as (d1 & W1 & B1).
  assert (HV : forall E, noisy_query ok F q s E -> valid E /\ valid (swap E)).
  { intros E HE. pose proof (proj1 (HB E HE)) as V. split; [exact V | destruct V as (N & A & B); split; [intros a Ha; destruct (N a Ha); split; assumption | split; assumption]]. }
  pose proof (worst_slow ok F q s _ _ _ _ HV G1 W1 W) as K. assert (WF : wf_pld D) by (destruct HS as (Sr & Sa & Sy); split; [apply Sr | split; [apply Sa | exact Sy]]).
  pose proof (pld_monotone D _ _ WF G1) as M.
  assert (exp (eps - IZR z * disc) <= exp disc) by (apply exp_le; lra). lra.
Qed.

Lemma pld_everywhere r cls ok F f s q disc D : 0 <= r -> 0 < disc -> grid_clear disc q ->
  (forall adj m, cls adj = Ok m -> additive_noise m ok F f s q adj) ->
  (forall adj m p, cls adj = Ok m -> dots_pmf m disc = Ok p -> close r disc p (upper_law adj F q s) (lower_law adj F q s)) ->
  subsampled_pld (fun adj => let? m := cls adj in dots_pmf m disc) q = Ok D ->
  forall eps, exists d, worst_delta ok F q s eps d /\ d <= pld_delta D (Fin eps) <= d + (exp disc - 1) + r.
Proof.
  intros Hr Hd HG HC HB H.
  destruct (subsampled_sound cls ok F f s q (fun m => dots_pmf m disc) HC) with (D := D) as [SD BD]; [|exact H|].
  { intros adj m p Hm Hp. apply (dots_above m ok F f s q adj disc p Hd (HC adj m Hm) (HG adj) Hp). }
  apply (everywhere r ok F q s disc D Hd SD BD).
  - intros eps. pose proof H as H'. unfold subsampled_pld in H'. destruct (cls REMOVE) as [mr|] eqn:Er; cbn [bind] in H'; [|discriminate].
    apply (worst_exists mr ok F f s q eps (HC _ _ Er)).
  - intros z. destruct (pld_close r cls ok F f s q disc D Hr Hd HG HC HB H z) as (d & W & B). exists d. split; [exact W | apply B].
Qed.

Lemma plus_0 d a x : d <= x <= d + a + 0 -> d <= x <= d + a.
Proof. lra. Qed.
Lemma exact_of d x : d <= x <= d + 0 -> x = d.
Proof. lra. Qed.
Lemma laplace_tight fuel b s disc q D : 0 < disc -> grid_clear disc q ->
  from_laplace_mechanism fuel b s true disc q true = Ok D ->
  (forall z, worst_delta any_value (laplace_law b) q s (IZR z * disc) (pld_delta D (Fin (IZR z * disc)))) /\
  (forall eps, exists d, worst_delta any_value (laplace_law b) q s eps d /\ d <= pld_delta D (Fin eps) <= d + (exp disc - 1)).
Proof.
  intros Hd HG H. unfold from_laplace_mechanism in H. rewrite dots_pld in H.
  pose proof (fun adj m p Hm Hp => laplace_close b s q adj disc m p Hd (HG adj) Hm Hp) as HB.
  pose proof (fun adj m Hm => laplace_noise m b s q adj Hm) as HC. split.
  - intros z. destruct (pld_close 0 _ _ _ _ s q disc D (Rle_refl 0) Hd HG HC HB H z) as (d & W & B).
    rewrite (exact_of _ _ B). exact W.
  - intros eps. destruct (pld_everywhere 0 _ _ _ _ s q disc D (Rle_refl 0) Hd HG HC HB H eps) as (d & W & B).
    exists d. split; [exact W | apply plus_0, B].
Qed.
Lemma gaussian_tight Phi ppf fuel sigma s lb disc q D : normal_cdf Phi -> quantile_of Phi ppf -> 0 < disc -> grid_clear disc q ->
  from_gaussian_mechanism Phi ppf fuel sigma s true disc lb q true = Ok D ->
  (forall z, exists d, worst_delta any_value (fun x => Phi (x / sigma)) q s (IZR z * disc) d /\
    d <= pld_delta D (Fin (IZR z * disc)) <= d + exp lb / 2) /\
  (forall eps, exists d, worst_delta any_value (fun x => Phi (x / sigma)) q s eps d /\
    d <= pld_delta D (Fin eps) <= d + (exp disc - 1) + exp lb / 2).
Proof.
  intros HP HQ Hd HG H. unfold from_gaussian_mechanism in H. rewrite dots_pld in H.
  assert (R0 : 0 <= exp lb / 2) by (pose proof (exp_pos lb); lra).
  pose proof (fun adj m p Hm Hp => gaussian_close Phi ppf sigma s lb q adj disc m p HP HQ Hd (HG adj) Hm Hp) as HB.
  assert (HC : exists f, forall adj m, GaussianPrivacyLoss Phi ppf sigma s true lb q adj = Ok m -> additive_noise m any_value (fun x => Phi (x / sigma)) f s q adj).
  { eexists. intros adj m Hm. eapply gaussian_noise; [exact HP | exact Hm]. }
  destruct HC as [f HC]. split.
  - apply (pld_close (exp lb / 2) _ _ _ f s q disc D R0 Hd HG HC HB H).
  - apply (pld_everywhere (exp lb / 2) _ _ _ f s q disc D R0 Hd HG HC HB H).
Qed.
Lemma dlaplace_tight fuel a s F disc q D : integer_noise (dlaplace_weights a) F -> 0 < disc -> grid_clear disc q ->
  from_discrete_laplace_mechanism fuel a s true disc q true = Ok D ->
  (forall z, worst_delta integer_value F q (IZR s) (IZR z * disc) (pld_delta D (Fin (IZR z * disc)))) /\
  (forall eps, exists d, worst_delta integer_value F q (IZR s) eps d /\ d <= pld_delta D (Fin eps) <= d + (exp disc - 1)).
Proof.
  intros HF Hd HG H. unfold from_discrete_laplace_mechanism in H. rewrite dots_pld in H.
  pose proof (fun adj m Hm => discrete_laplace_noise m a s q adj F HF Hm) as HC.
  assert (HB : forall adj m p, DiscreteLaplacePrivacyLoss a s q adj = Ok m -> dots_pmf m disc = Ok p ->
    close 0 disc p (upper_law adj F q (IZR s)) (lower_law adj F q (IZR s))).
  { intros adj m p Hm Hp. pose proof Hm as Hm'. apply dlaplace_ok in Hm'. destruct Hm' as [(Ha & _) _].
    assert (F = dlaplace_law a) as -> by (apply functional_extensionality, (integer_noise_unique (dlaplace_weights a)); [exact HF | apply dlaplace_noise, Ha]).
    apply (dlaplace_close a s q adj disc m p Hd (HG adj) Hm Hp). }
  split.
  - intros z. destruct (pld_close 0 _ _ _ _ (IZR s) q disc D (Rle_refl 0) Hd HG HC HB H z) as (d & W & B).
    rewrite (exact_of _ _ B). exact W.
  - intros eps. destruct (pld_everywhere 0 _ _ _ _ (IZR s) q disc D (Rle_refl 0) Hd HG HC HB H eps) as (d & W & B).
    exists d. split; [exact W | apply plus_0, B].
Qed.
Lemma dgauss_tight fuel sigma s bound F disc q D : integer_noise (dgaussian_weights sigma (default_bound sigma bound)) F -> 0 < disc -> grid_clear disc q ->
  from_discrete_gaussian_mechanism fuel sigma s bound true disc q true = Ok D ->
  (forall z, worst_delta integer_value F q (IZR s) (IZR z * disc) (pld_delta D (Fin (IZR z * disc)))) /\
  (forall eps, exists d, worst_delta integer_value F q (IZR s) eps d /\ d <= pld_delta D (Fin eps) <= d + (exp disc - 1)).
Proof.
  intros HF Hd HG H. unfold from_discrete_gaussian_mechanism in H. set (T := default_bound sigma bound) in *. rewrite dots_pld in H.
  pose proof (fun adj m Hm => discrete_gaussian_noise m sigma s T q adj F HF Hm) as HC.
  assert (HB : forall adj m p, DiscreteGaussianPrivacyLoss sigma s T q adj = Ok m -> dots_pmf m disc = Ok p ->
    close 0 disc p (upper_law adj F q (IZR s)) (lower_law adj F q (IZR s))).
  { intros adj m p Hm Hp. pose proof Hm as Hm'. apply dgauss_ok in Hm'. destruct Hm' as [(Hb & Hs & HT & _) _].
    assert (F = dgaussian_law sigma T) as -> by (apply functional_extensionality, (integer_noise_unique (dgaussian_weights sigma T)); [exact HF | apply dgaussian_noise; (assumption || lia)]).
    apply (dgauss_close sigma s T q adj disc m p Hd (HG adj) Hm Hp). }
  split.
  - intros z. destruct (pld_close 0 _ _ _ _ (IZR s) q disc D (Rle_refl 0) Hd HG HC HB H z) as (d & W & B).
    rewrite (exact_of _ _ B). exact W.
  - intros eps. destruct (pld_everywhere 0 _ _ _ _ (IZR s) q disc D (Rle_refl 0) Hd HG HC HB H eps) as (d & W & B).
    exists d. split; [exact W | apply plus_0, B].
Qed.

Lemma tight_example dots : grid_clear 1 (1/2) /\
  (exists N D, from_laplace_mechanism N 2 3 true 1 (1/2) dots = Ok D) /\
  (exists F N D, integer_noise (dlaplace_weights 2) F /\ from_discrete_laplace_mechanism N 2 3 true 1 (1/2) dots = Ok D) /\
  (exists F N D, integer_noise (dgaussian_weights 2 (default_bound 2 (Some 5%Z))) F /\
    from_discrete_gaussian_mechanism N 2 3 (Some 5%Z) true 1 (1/2) dots = Ok D) /\
  (exists Phi ppf N D, normal_cdf Phi /\ quantile_of Phi ppf /\
    from_gaussian_mechanism Phi ppf N 2 3 true 1 (-50) (1/2) dots = Ok D).
Proof.
  pose proof grid_clear_half as G. split; [exact G|]. split; [|split; [|split]].
  - destruct (laplace_constructs 2 3 true 1 (1/2) dots) as (N & D & H); try lra; [intros; exact G|]. exists N, D. apply H, Nat.le_refl.
  - destruct (dlaplace_constructs 2 3 true 1 (1/2) dots) as (N & D & H); try lra; [lia | intros; exact G|].
    exists (dlaplace_law 2), N, D. split; [apply dlaplace_noise; lra | apply H, Nat.le_refl].
  - destruct (dgauss_constructs 2 3 (Some 5%Z) true 1 (1/2) dots) as (N & D & H); try lra; [cbn; lia | intros; exact G|].
    exists (dgaussian_law 2 5), N, D. split; [cbn [default_bound]; apply dgaussian_noise; (lra || lia) | apply H, Nat.le_refl].
  - destruct normal_exists as (Phi & ppf & HP & HQ).
    destruct (gaussian_constructs Phi ppf 2 3 true 1 (-50) (1/2) dots HP HQ) as (N & D & H); try lra; [intros; exact G|].
    exists Phi, ppf, N, D. split; [exact HP|]. split; [exact HQ | apply H, Nat.le_refl].
Qed.
