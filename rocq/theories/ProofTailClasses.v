(** The tails of the four classes of additive noise. *)
From Coq Require Import FunctionalExtensionality.
From Verif Require Import Base XReal Exn PyDict TypesAdjacency ModelPmf ModelPld ModelMake ModelMech SpecDP SpecPmf SpecPld SpecMech SpecClasses SpecConstruct
  ProofDP ProofDict ProofPmf ProofMake ProofPeak ProofNoise ProofShape ProofShapeGauss ProofShapeInt ProofAdditive ProofClasses ProofMechTop ProofBuckets ProofTails.
Local Arguments Rltb : simpl never.
Local Arguments Rleb : simpl never.
Local Arguments Reqb : simpl never.

(** losses within [-c, c], with the extremes at [lo] and [hi] *)
Section Extremes.
  Context (s : R) (pk : R -> xr) (loss0 : adjacency -> xr -> res xr) (pt : adjacency -> R -> Prop) (Lf : R -> xr).
  Hypothesis HLo : loses s pk loss0 pt Lf.
  Context (q : R) (Hq : 0 < q <= 1) (adj : adjacency).
  Let loss x := a_privacy_loss q adj (loss0 adj) (Fin x).
  Context (c : R) (Hc : 0 < c) (good : R -> Prop).
  Hypothesis HG : forall x, good x -> pt adj x /\ exists a, base_loss s Lf adj x = Fin a /\ - c <= a <= c.
  Lemma extremes lo hi : good lo -> base_loss s Lf adj lo = Fin c -> good hi -> base_loss s Lf adj hi = Fin (- c) ->
    exists l1 l2, loss lo = Ok (Fin l1) /\ loss hi = Ok (Fin l2) /\ xeqb (Fin l1) (Fin l2) = false /\
      forall x, good x -> exists a, loss x = Ok (Fin a) /\ l2 <= a <= l1.
  Proof.
    intros Gl El Gh Eh. destruct (HG lo Gl) as [Pl _]. destruct (HG hi Gh) as [Ph _].
    pose proof (loss_ok _ _ _ _ _ HLo q Hq adj lo Pl) as L1. pose proof (loss_ok _ _ _ _ _ HLo q Hq adj hi Ph) as L2.
    rewrite El in L1. rewrite Eh in L2. destruct (sub_loss_fin adj q c) as [l1 E1]. destruct (sub_loss_fin adj q (- c)) as [l2 E2].
    exists l1, l2. rewrite E1 in L1. rewrite E2 in L2. split; [exact L1|]. split; [exact L2|]. split.
    - pose proof (sub_loss_strict adj q (- c) c Hq ltac:(lra)) as S. rewrite E1, E2 in S. cbn [xltb] in S.
      destruct (Rltb_spec l2 l1); [|discriminate]. cbn [xeqb]. apply Reqb_false. lra.
    - intros x Gx. destruct (HG x Gx) as [Px (a & Ea & B)]. pose proof (loss_ok _ _ _ _ _ HLo q Hq adj x Px) as L3. rewrite Ea in L3.
      destruct (sub_loss_fin adj q a) as [b Eb]. exists b. rewrite Eb in L3. split; [exact L3|].
      pose proof (sub_loss_mono adj q (Fin (- c)) (Fin a) Hq (proj2 (xleb_fin _ _) (proj1 B))) as M1.
      pose proof (sub_loss_mono adj q (Fin a) (Fin c) Hq (proj2 (xleb_fin _ _) (proj2 B))) as M2.
      rewrite E2, Eb in M1. rewrite E1, Eb in M2. rewrite xleb_fin in M1, M2. lra.
  Qed.
End Extremes.

Lemma abs_diff x s : 0 < s -> - s <= Rabs x - Rabs (x + s) <= s.
Proof. intros. unfold Rabs. destruct (Rcase_abs x), (Rcase_abs (x + s)); lra. Qed.

(** ** Laplace *)
Lemma laplace_tail_ok b s q adj bounds disc pess : 0 < b -> 0 < s -> forall Hq : 0 < q <= 1, 0 < disc ->
  (forall z, ~ near_limit adj q (IZR z * disc)) ->
  tail_ok (laplace_law b) s (laplace_peak b s) (laplace_cdf b) (laplace_loss0 b s) (laplace_inverse0 b s) q adj false
    (laplace_tail b s q adj) bounds disc pess.
Proof.
  intros Hb Hs Hq Hd HN. pose proof (laplace_fits b s Hb Hs) as HF. pose proof (laplace_loses b s Hb Hs) as HL.
  set (Lf := fun x => Fin ((Rabs x - Rabs (x + s)) / b)) in *.
  assert (Hc : 0 < s / b) by (apply Rdiv_lt_0_compat; assumption).
  set (lo := match adj with ADD => 0 | REMOVE => - s end). set (hi := match adj with ADD => s | REMOVE => 0 end).
  destruct (extremes s _ _ _ Lf HL q Hq adj (s / b) Hc (fun _ => True)) with (lo := lo) (hi := hi) as (l1 & l2 & L1 & L2 & NE & B); try exact Logic.I.
  { intros x _. split; [exact Logic.I|]. destruct adj; cbn [base_loss]; unfold Lf; eexists; (split; [reflexivity|]).
    - pose proof (abs_diff (x - s) s Hs). split; apply (Rmult_le_reg_r b); try assumption; unfold Rdiv; field_simplify; lra.
    - pose proof (abs_diff x s Hs). split; apply (Rmult_le_reg_r b); try assumption; unfold Rdiv; field_simplify; lra. }
  { unfold lo, Lf. destruct adj; cbn [base_loss]; do 2 f_equal.
    - replace (0 - s + s) with 0 by ring. rewrite Rabs_R0, Rabs_left by lra. ring.
    - replace (- s + s) with 0 by ring. rewrite Rabs_R0, Rabs_left by lra. ring. }
  { unfold hi, Lf. destruct adj; cbn [base_loss].
    - replace (s - s + s) with s by ring. replace (s - s) with 0 by ring. rewrite Rabs_R0, Rabs_right by lra. f_equal. field. lra.
    - replace (0 + s) with s by ring. rewrite Rabs_R0, Rabs_right by lra. f_equal. field. lra. }
  intros t Ht. unfold additive in Ht. cbn [privacy_loss_tail] in Ht.
  assert (E : t = mkTail lo hi [(Fin l1, at_end (upper_law adj (laplace_law b) q s) (Fin lo)); (Fin l2, 1 - at_end (upper_law adj (laplace_law b) q s) (Fin hi))]).
  { unfold laplace_tail in Ht. assert (ET : (match adj with ADD => (0, s) | REMOVE => (- s, 0) end) = (lo, hi)) by (destruct adj; reflexivity).
    rewrite ET in Ht. unfold laplace_privacy_loss in Ht. rewrite L1, L2 in Ht. cbn [bind] in Ht. unfold dict2 in Ht. rewrite NE in Ht.
    unfold laplace_mu in Ht. rewrite !(upper_cdf _ _ _ _ _ HF q Hq adj) in Ht. injection Ht as <-. reflexivity. }
  rewrite E. cbn [lower_x_truncation upper_x_truncation]. split; [unfold lo, hi; destruct adj; lra|]. split.
  - intros x. destruct (B x Logic.I) as (a & Ea & _). exists a. exact Ea.
  - apply (tail_fits_two _ _ _ _ _ _ _ _ HF HL q Hq adj false (laplace_tail b s q adj) bounds disc Hd pess (fun _ => True) _ lo hi l1 l2 (fun _ => HN)); try exact Logic.I; try reflexivity.
    + intros x _. apply (B x Logic.I).
    + intros r. exists (r + 1). split; [exact Logic.I | lra].
    + exact L1.
    + intros k Rk.
      pose proof (in_strict _ _ _ _ _ _ _ _ HF HL q Hq adj false (laplace_tail b s q adj) bounds) as ST.
      apply (cell_right _ _ (in_U _ _ _ _ _ HF q Hq adj) (in_L _ _ _ _ _ HF q Hq adj) _ (in_HP _ _ _ _ _ HF q Hq adj) _ disc Hd ST hi PInf (Fin l2)); [exact L2 | exact Rk].
Qed.

(** ** Gaussian *)
Lemma normal_strict Phi x y : normal_cdf Phi -> x < y -> Phi x < Phi y.
Proof.
  intros [_ (c & Hc & D)] H.
  destruct (MVT_cor2 Phi (fun x => c * exp (- (x * x) / 2)) x y H (fun z _ => D z)) as (z & E & _).
  assert (0 < c * exp (- (z * z) / 2)) by (apply Rmult_lt_0_compat; [assumption | apply exp_pos]). nra.
Qed.
Lemma quantile_neg Phi ppf u : normal_cdf Phi -> quantile_of Phi ppf -> 0 < u <= 1 / 2 -> ppf u <= 0.
Proof.
  intros HP HQ Hu. destruct (Rle_dec (ppf u) 0) as [H|H]; [assumption|]. exfalso.
  pose proof (normal_strict Phi 0 (ppf u) HP ltac:(lra)) as S. rewrite HQ in S by lra.
  pose proof (normal_mirror Phi HP 0) as M. rewrite Ropp_0 in M. lra.
Qed.
Lemma gaussian_tail_ok Phi ppf sigma s q adj bounds lb disc pess : normal_cdf Phi -> quantile_of Phi ppf ->
  0 < sigma -> 0 < s -> lb <= 0 -> forall Hq : 0 < q <= 1, 0 < disc ->
  (forall z, ~ near_limit adj q (IZR z * disc)) ->
  tail_ok (gaussian_law Phi sigma) s (gaussian_peak sigma s) (gaussian_cdf Phi sigma) (gaussian_loss0 sigma s) (gaussian_inverse0 sigma s) q adj false
    (gaussian_tail Phi ppf sigma s pess lb q adj) bounds disc pess.
Proof.
  intros HP HQ Hb Hs Hlb Hq Hd HN. pose proof (gaussian_fits Phi sigma s HP Hb Hs) as HF. pose proof (gaussian_loses sigma s Hb Hs) as HL.
  set (Lf := fun x => Fin (s * (- (1/2) * s - x) / (sigma * sigma))) in *.
  assert (TOT : forall x, exists a, a_privacy_loss q adj (gaussian_loss0 sigma s adj) (Fin x) = Ok (Fin a)).
  { intros x. rewrite (loss_ok _ _ _ _ _ HL q Hq adj x Logic.I).
    assert (exists a, base_loss s Lf adj x = Fin a) as [a ->] by (destruct adj; eexists; reflexivity).
    destruct (sub_loss_fin adj q a) as [c ->]. exists c. reflexivity. }
  assert (NEG : sigma * ppf (1/2 * exp lb) <= 0).
  { assert (exp lb <= 1) by (rewrite <- exp_0; apply exp_le; assumption). pose proof (exp_pos lb).
    assert (ppf (1/2 * exp lb) <= 0) by (apply (quantile_neg Phi); [assumption | assumption | lra]). nra. }
  set (l0 := sigma * ppf (1/2 * exp lb)) in *.
  set (lo := match adj with ADD => l0 | REMOVE => l0 - s end). set (hi := match adj with ADD => - l0 + s | REMOVE => - l0 end).
  assert (ET : (match adj with ADD => (l0, - l0 + s) | REMOVE => (l0 - s, - l0) end) = (lo, hi)) by (destruct adj; reflexivity).
  destruct (TOT lo) as [l1 L1]. destruct (TOT hi) as [l2 L2].
  intros t Ht. unfold additive in Ht. cbn [privacy_loss_tail] in Ht. unfold gaussian_tail in Ht. fold l0 in Ht. rewrite ET in Ht.
  unfold gaussian_privacy_loss, gaussian_mu in Ht. rewrite L1, L2 in Ht. cbn [bind] in Ht. unfold dict2 in Ht. cbn [xeqb] in Ht.
  rewrite !(upper_cdf _ _ _ _ _ HF q Hq adj) in Ht.
  assert (LH : lo <= hi) by (unfold lo, hi; destruct adj; lra).
  destruct pess; injection Ht as <-; cbn [lower_x_truncation upper_x_truncation]; (split; [exact LH|]; split; [exact TOT|]).
  - apply (tail_fits_inf _ _ _ _ _ _ _ _ HF HL q Hq adj false (gaussian_tail Phi ppf sigma s true lb q adj) bounds disc Hd _ lo hi (Fin l2)); [reflexivity | discriminate | exact L2].
  - apply (tail_fits_low _ _ _ _ _ _ _ _ HF HL q Hq adj false (gaussian_tail Phi ppf sigma s false lb q adj) bounds disc Hd _ lo hi (Fin l1) HN); [reflexivity | discriminate | exact L1].
Qed.

(** ** Integer noise *)
Lemma peak_int adj q s pk : (forall l a, pk l = Fin a -> int_pt a) -> forall l a, peak adj q (IZR s) pk l = Fin a -> int_pt a.
Proof.
  intros H l a. destruct adj; cbn [peak].
  - unfold peak_add. destruct (Rltb _ _); [|discriminate]. destruct (pk _) as [b| | |] eqn:E; cbn [xadd]; try discriminate. intros [= <-].
    apply H in E. unfold int_pt in *. rewrite Rfloor_plus, plus_IZR. lra.
  - unfold peak_remove. destruct (Rltb _ _); [|discriminate]. apply H.
Qed.
Lemma int_IZR z : int_pt (IZR z).
Proof. unfold int_pt. rewrite Rfloor_IZR. reflexivity. Qed.

Lemma dlaplace_tail_ok a s q adj bounds disc pess : 0 < a -> (0 < s)%Z -> forall Hq : 0 < q <= 1, 0 < disc ->
  (pess = false -> forall z, ~ near_limit adj q (IZR z * disc)) ->
  tail_ok (dlaplace_law a) (IZR s) (dlaplace_peak a s) (dlaplace_cdf a) (dlaplace_loss0 a s) (dlaplace_inverse0 a s) q adj true
    (dlaplace_tail a s q adj) bounds disc pess.
Proof.
  intros Ha Hs Hq Hd HN. pose proof (dlaplace_fits a s Ha Hs) as HF. pose proof (dlaplace_loses a s Ha Hs) as HL. pose proof (IZR_lt _ _ Hs) as Hs'.
  set (Lf := fun x => Fin ((Rabs x - Rabs (x + IZR s)) * a)) in *.
  assert (Hc : 0 < IZR s * a) by (apply Rmult_lt_0_compat; assumption).
  set (lo := match adj with ADD => 1 | REMOVE => 1 - s end%Z). set (hi := match adj with ADD => s - 1 | REMOVE => -1 end%Z).
  assert (PI : forall l b, peak adj q (IZR s) (dlaplace_peak a s) l = Fin b -> int_pt b).
  { apply peak_int. intros l b. unfold dlaplace_peak. destruct (Rltb _ _); [discriminate|]. destruct (Rleb _ _); [discriminate|]. intros [= <-]. apply int_IZR. }
  destruct (extremes (IZR s) _ _ _ Lf HL q Hq adj (IZR s * a) Hc int_pt) with (lo := IZR (lo - 1)) (hi := IZR (hi + 1)) as (l1 & l2 & L1 & L2 & NE & B); try apply int_IZR.
  { intros x Ix. split; [exact Ix|]. destruct adj; cbn [base_loss]; unfold Lf; eexists; (split; [reflexivity|]).
    - pose proof (abs_diff (x - IZR s) (IZR s) Hs'). nra.
    - pose proof (abs_diff x (IZR s) Hs'). nra. }
  { unfold lo, Lf. destruct adj; cbn [base_loss]; do 2 f_equal.
    - replace (IZR (1 - 1) - IZR s + IZR s) with 0 by (cbn; ring). replace (IZR (1 - 1) - IZR s) with (- IZR s) by (cbn; ring).
      rewrite Rabs_R0, Rabs_left by lra. ring.
    - replace (1 - s - 1)%Z with (- s)%Z by lia. rewrite opp_IZR. replace (- IZR s + IZR s) with 0 by ring. rewrite Rabs_R0, Rabs_left by lra. ring. }
  { unfold hi, Lf. destruct adj; cbn [base_loss].
    - replace (s - 1 + 1)%Z with s by lia. replace (IZR s - IZR s + IZR s) with (IZR s) by ring. replace (IZR s - IZR s) with 0 by ring.
      rewrite Rabs_R0, Rabs_right by lra. f_equal. ring.
    - cbn [Z.add Z.pos_sub]. change (IZR (-1 + 1)) with 0. replace (0 + IZR s) with (IZR s) by ring. rewrite Rabs_R0, Rabs_right by lra. f_equal. ring. }
  intros t Ht. unfold additive in Ht. cbn [privacy_loss_tail] in Ht.
  set (U := upper_law adj (dlaplace_law a) q (IZR s)).
  assert (E : t = mkTail (IZR lo) (IZR hi) [(Fin l1, at_end U (Fin (IZR (lo - 1)))); (Fin l2, 1 - at_end U (Fin (IZR hi)))]).
  { unfold dlaplace_tail in Ht. assert (ET : (match adj with ADD => (1, s - 1) | REMOVE => (1 - s, -1) end%Z) = (lo, hi)) by (destruct adj; reflexivity).
    rewrite ET in Ht. unfold dlaplace_privacy_loss in Ht. rewrite L1, L2 in Ht. cbn [bind] in Ht. unfold dict2 in Ht. rewrite NE in Ht.
    unfold dlaplace_mu in Ht. rewrite !(upper_cdf _ _ _ _ _ HF q Hq adj) in Ht. injection Ht as <-. reflexivity. }
  rewrite E. cbn [lower_x_truncation upper_x_truncation]. exists lo, hi. split; [reflexivity|]. split; [reflexivity|].
  split; [unfold lo, hi; destruct adj; lia|]. split; [exact PI|].
  apply (tail_fits_two _ _ _ _ _ _ _ _ HF HL q Hq adj true (dlaplace_tail a s q adj) bounds disc Hd pess int_pt _ (IZR (lo - 1)) (IZR hi) l1 l2 HN).
  - reflexivity.
  - apply int_IZR.
  - exact B.
  - exact PI.
  - intros r. exists (IZR (Rfloor r + 1)). split; [apply int_IZR|]. rewrite plus_IZR. destruct (Rfloor_spec r). lra.
  - exact L1.
  - intros k Rk. pose proof (in_strict _ _ _ _ _ _ _ _ HF HL q Hq adj true (dlaplace_tail a s q adj) bounds) as ST.
    destruct (round_bound disc Hd _ _ _ Rk) as (b & [= <-] & K1 & _). cbn in K1.
    apply (cell_above _ _ (in_U _ _ _ _ _ HF q Hq adj) (in_L _ _ _ _ _ HF q Hq adj) _ (in_HP _ _ _ _ _ HF q Hq adj)).
    intros l' Hl'. assert (S : xltb (Fin l2) (Fin l') = true) by (cbn; apply Rltb_true; lra).
    pose proof (ST (IZR (hi + 1)) (Fin l2) l' L2 S) as G. destruct (peak adj q (IZR s) (dlaplace_peak a s) l') as [b| | |] eqn:Ep; try discriminate; try reflexivity.
    apply PI in Ep. apply xleb_fin. rewrite Ep in G |- *. cbn [xltb] in G. destruct (Rltb_spec (IZR (Rfloor b)) (IZR (hi + 1))) as [G'|]; [|discriminate].
    apply lt_IZR in G'. apply IZR_le. lia.
Qed.

Lemma dgauss_tail_ok sigma s T q adj bounds disc pess : 0 < sigma -> (0 < s)%Z -> (s <= 2 * T)%Z -> forall Hq : 0 < q <= 1, 0 < disc ->
  tail_ok (dgaussian_law sigma T) (IZR s) (dgaussian_peak sigma T s) (dgauss_cdf sigma T) (dgauss_loss0 sigma s T) (dgauss_inverse0 sigma s T) q adj true
    (dgauss_tail sigma s T q adj) bounds disc pess.
Proof.
  intros Hb Hs HT Hq Hd. assert (HT' : (0 <= T)%Z) by lia. pose proof (dgauss_fits sigma s T Hb Hs HT') as HF.
  set (F := dgaussian_law sigma T) in *. assert (CD : is_cdf F) by (apply dg_is_cdf; assumption).
  assert (F0 : forall z, (z <= - T - 1)%Z -> F (IZR z) = 0).
  { intros z Hz. destruct CD as (C1 & C2 & _). assert (F (IZR (- T - 1)) = 0) as E0.
    { unfold F, dgaussian_law. rewrite Rfloor_IZR. apply dg_low; assumption. }
    pose proof (C2 _ _ (IZR_le _ _ Hz)). pose proof (C1 (IZR z)). lra. }
  assert (F1 : forall z, (T <= z)%Z -> F (IZR z) = 1).
  { intros z Hz. destruct CD as (C1 & C2 & _). assert (F (IZR T) = 1) as E1.
    { unfold F, dgaussian_law. rewrite Rfloor_IZR. apply dg_high; assumption. }
    pose proof (C2 _ _ (IZR_le _ _ Hz)). pose proof (C1 (IZR z)). lra. }
  intros t Ht. unfold additive in Ht. cbn [privacy_loss_tail] in Ht. unfold dgauss_tail in Ht.
  destruct (dgauss_truncation s T q adj) as [lo hi] eqn:ET. unfold dgauss_mu in Ht. rewrite !(upper_cdf _ _ _ _ _ HF q Hq adj) in Ht. injection Ht as <-.
  cbn [lower_x_truncation upper_x_truncation]. exists lo, hi. split; [reflexivity|]. split; [reflexivity|].
  assert (D : (lo - 1 <= hi)%Z /\ at_end (lower_law adj F q (IZR s)) (Fin (IZR (lo - 1))) = 0 /\ at_end (upper_law adj F q (IZR s)) (Fin (IZR hi)) = 1).
  { unfold dgauss_truncation in ET. destruct adj; cbn [upper_law lower_law at_end]; unfold add_lower, remove_upper, sampled;
      destruct (Reqb_spec q 1) as [->|Nq]; injection ET as <- <-;
      repeat match goal with |- context[IZR ?u - IZR s] => rewrite <- (minus_IZR u s) | |- context[IZR ?u + IZR s] => rewrite <- (plus_IZR u s) end.
    - split; [lia|]. split; [|apply F1; lia]. rewrite (F0 (s - T - 1 - s)%Z) by lia. ring.
    - split; [lia|]. split; [|apply F1; lia]. rewrite !F0 by lia. ring.
    - split; [lia|]. split; [apply F0; lia|]. rewrite (F1 (T - s + s)%Z) by lia. ring.
    - split; [lia|]. split; [apply F0; lia|]. rewrite !F1 by lia. ring. }
  destruct D as (D1 & D2 & D3). split; [exact D1|]. split.
  - apply peak_int. intros l b. unfold dgaussian_peak. rewrite (proj2 (Z.eqb_neq s 0)) by lia. intros [= <-]. apply int_IZR.
  - apply (tail_fits_none _ _ _ _ _ HF q Hq adj disc pess _ (IZR (lo - 1)) (IZR hi)); [reflexivity | exact D2 | exact D3].
Qed.
