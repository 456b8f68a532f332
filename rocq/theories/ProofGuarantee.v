(** from_privacy_guarantee: the noise it chooses delivers the guarantee. *)
From Coq Require Import FunctionalExtensionality.
From Verif Require Import Base XReal Exn PyDict TypesAdjacency SpecDP SpecMech SpecClasses ModelPmf ModelMake ModelRdp ModelLog ModelSearch SpecSearch ModelMech
  ProofDP ProofLog ProofPeak ProofNoise ProofShape ProofShapeGauss ProofShapeInt ProofAdditive ProofClasses ProofMechTop ProofSearch ProofSearchEx.
Local Arguments Rltb : simpl never.
Local Arguments Rleb : simpl never.
Local Arguments Reqb : simpl never.

(** The bound without subsampling that gives [eps] with subsampling. *)
Definition unamplified (q eps : R) : R := ln (1 + (exp eps - 1) / q).
Lemma unamplified_pos q eps : 0 < q <= 1 -> 0 < eps -> 0 < unamplified q eps.
Proof.
  intros Hq He. unfold unamplified. assert (1 < exp eps) by (rewrite <- exp_0; apply exp_increasing, He).
  assert (0 < (exp eps - 1) / q) by (apply Rdiv_lt_0_compat; lra). rewrite <- ln_1. apply ln_increasing; lra.
Qed.

(** Noise whose privacy loss is at most [unamplified q eps] gives [eps]-DP. *)
Lemma pure_guarantee ok F q s pk eps E : noise_family ok F -> shape F s pk -> 0 < q <= 1 -> ok s -> 0 < eps ->
  (forall l, unamplified q eps <= l -> forall x, x <> NaN -> at_end F (xadd x (Fin s)) - exp l * at_end F x <= 0) ->
  noisy_query ok F q s E -> dp_both E eps 0.
Proof.
  intros Fam HS Hq Ho He Z HE. pose proof HS as (HF & Hs & _).
  pose proof (divergence_peak _ _ _ _ (remove_peaked F s pk q eps HS Hq)) as DR.
  pose proof (divergence_peak _ _ _ _ (add_peaked F s pk q eps HS Hq)) as DA.
  assert (R0 : hend (gap (remove_upper F q s) F (exp eps)) (1 - exp eps) (peak_remove q pk eps) <= 0).
  { rewrite <- at_end_gap. assert (NP : peak_remove q pk eps <> NaN) by apply (remove_uni F s pk q eps HS Hq).
    unfold remove_upper. rewrite at_end_sampled. rewrite <- at_end_shift. set (x := peak_remove q pk eps) in *.
    pose proof (Z (unamplified q eps) (Rle_refl _) x NP) as U. unfold unamplified in U.
    assert (1 < exp eps) by (rewrite <- exp_0; apply exp_increasing, He).
    assert (0 < (exp eps - 1) / q) by (apply Rdiv_lt_0_compat; lra).
    rewrite exp_ln in U by lra. apply (Rmult_le_compat_l q) in U; [|lra]. rewrite Rmult_0_r in U.
    replace (q * (at_end F (xadd x (Fin s)) - (1 + (exp eps - 1) / q) * at_end F x)) with (q * at_end F (xadd x (Fin s)) - (q + (exp eps - 1)) * at_end F x) in U by (field; lra). lra. }
  pose proof (add_le_remove F s pk q eps _ _ HS Hq (Rlt_le _ _ He) DR DA) as A0.
  destruct (noisy_query_bounded ok F Fam q s Hq Hs Ho E eps _ _ HE DR DA) as (V & D1 & D2).
  split; intros S; [specialize (D1 S) | specialize (D2 S)]; lra.
Qed.

(** With less noise the guarantee fails. *)
Lemma observed_failure ok F q s pk eps x : noise_family ok F -> shape F s pk -> 0 < q <= 1 -> ok s ->
  0 < q * F (x + s) - (exp eps - (1 - q)) * F x -> exists E, noisy_query ok F q s E /\ ~ dp E eps 0.
Proof.
  intros Fam HS Hq Ho Hx. pose proof HS as (HF & Hs & _). destruct Fam as (_ & _ & On & _ & O0).
  destruct (divergence_peak _ _ _ _ (remove_peaked F s pk q eps HS Hq)) as [_ (cuts & SC & D)].
  exists (observe (remove_upper F q s) F cuts). split.
  - exists 0, (- s), cuts. split; [assumption|]. split; [apply On, Ho|]. split; [rewrite Rabs_Ropp, Rabs_right by lra; lra|]. split; [assumption|].
    f_equal; apply functional_extensionality; intros y; unfold remove_upper, sampled, add_noise.
    + rewrite Rminus_0_r. replace (y - (0 + - s)) with (y + s) by ring. reflexivity.
    + rewrite Rminus_0_r. reflexivity.
  - intros HD. assert (V : valid (observe (remove_upper F q s) F cuts)) by (apply observe_valid; [apply cdf_remove; [lra | assumption] | assumption | assumption]).
    apply dp_iff_hockey in HD. rewrite D in HD.
    pose proof (peaked_best _ _ _ (remove_peaked F s pk q eps HS Hq) (Fin x) ltac:(discriminate)) as B.
    rewrite <- at_end_gap in B. cbn [at_end] in B. unfold remove_upper at 1, sampled in B. lra.
Qed.

(** ** Laplace *)
Lemma laplace_bounded b s l x : 0 < b -> 0 <= s -> s / b <= l -> x <> NaN ->
  at_end (laplace_law b) (xadd x (Fin s)) - exp l * at_end (laplace_law b) x <= 0.
Proof.
  intros Hb Hs Hl Nx. pose proof (laplace_shape b Hb s Hs) as HS.
  assert (E : at_end (laplace_law b) (xadd x (Fin s)) - exp l * at_end (laplace_law b) x =
    hend (gap (fun y => laplace_law b (y + s)) (laplace_law b) (exp l)) (1 - exp l) x) by (rewrite at_end_shift; apply at_end_gap).
  rewrite E. pose proof HS as (HF & _ & HU). pose proof (exp_pos l).
  pose proof (uni_peaked (fun y => laplace_law b (y + s)) (laplace_law b) (exp l) _ (cdf_shift _ s HF) HF ltac:(lra) (HU l)) as PK.
  eapply Rle_trans; [apply (peaked_best _ _ _ PK x Nx)|]. 
  assert (LB : s <= l * b). { apply (Rmult_le_compat_r b) in Hl; [|lra]. replace (s / b * b) with s in Hl by (field; lra). assumption. }
  unfold laplace_peak. destruct (Rltb_spec s (l * b)) as [L|L]; [cbn; lra|].
  assert (EQ : l * b = s) by lra. assert (El : l = s / b) by (rewrite <- EQ; field; lra).
  destruct (Rleb_spec (l * b) (- s)) as [L2|L2].
  - assert (S0 : s = 0) by lra. assert (l = 0) as -> by (rewrite El, S0; unfold Rdiv; ring). cbn. rewrite exp_0. lra.
  - rewrite EQ. cbn [hend]. unfold gap, laplace_law. replace (1 / 2 * (- s - s) + s) with 0 by field. rewrite (Rltb_false 0 0), (Rltb_true (1 / 2 * (- s - s)) 0) by lra.
    replace (- 0 / b) with 0 by (field; lra). rewrite exp_0. replace (1/2 * (- s - s) / b) with (- l) by (rewrite El; field; lra).
    unfold Rdiv. rewrite <- Rmult_assoc, <- exp_plus. replace (l + - l) with 0 by ring. rewrite exp_0. lra.
Qed.
Lemma laplace_guarantee_eq eps delta s q b : 0 <= eps -> laplace_from_guarantee (eps, delta) s q = Ok (Fin b) ->
  0 < s /\ 0 < q <= 1 /\ 0 < eps /\ b = s / unamplified q eps.
Proof.
  intros He. unfold laplace_from_guarantee. cbn [fst]. set (b0 := xdiv (Fin s) _). destruct (xleb b0 (Fin 0)) eqn:L; [discriminate|].
  destruct (check_additive s q) eqn:C; cbn [bind]; [|discriminate]. apply check_additive_ok in C. destruct C as [Hs Hq].
  intros [= H]. split; [assumption|]. split; [assumption|]. revert H. unfold b0, xsub. cbn [xneg xadd xdiv]. rewrite (Reqb_false q 0) by lra. cbn [xadd].
  assert (E1 : 1 <= exp eps) by (rewrite <- exp_0; apply exp_le, He).
  assert (P : 0 <= (exp eps + - (1)) / q) by (apply Rmult_le_pos; [lra | left; apply Rinv_0_lt_compat; lra]).
  rewrite np_log_pos by lra. cbn [xdiv]. destruct (Reqb_spec (ln (1 + (exp eps + - (1)) / q)) 0) as [Z|Z].
  - destruct (Rltb 0 s); [discriminate|]. destruct (Rltb s 0); discriminate.
  - intros [= <-]. split; [|reflexivity]. destruct He as [He|<-]; [assumption|]. exfalso. apply Z. rewrite exp_0.
    replace ((1 + - (1)) / q) with 0 by (field; lra). rewrite Rplus_0_r, ln_1. reflexivity.
Qed.
Lemma laplace_guarantee eps delta s q b : 0 <= eps -> laplace_from_guarantee (eps, delta) s q = Ok (Fin b) ->
  0 < b /\ (forall E, noisy_query any_value (laplace_law b) q s E -> dp_both E eps 0) /\
  (forall b', 0 < b' < b -> exists E, noisy_query any_value (laplace_law b') q s E /\ ~ dp E eps 0).
Proof.
  intros He H. apply laplace_guarantee_eq in H; [|assumption]. destruct H as (Hs & Hq & He' & Eb).
  pose proof (unamplified_pos q eps Hq He') as U. assert (Hb : 0 < b) by (rewrite Eb; apply Rdiv_lt_0_compat; assumption).
  split; [assumption|]. split.
  - intros E. apply (pure_guarantee any_value _ q s _ eps E (laplace_family b Hb) (laplace_shape b Hb s (Rlt_le _ _ Hs)) Hq Logic.I He').
    intros l Hl x Nx. apply laplace_bounded; [assumption | lra | | assumption]. rewrite Eb. replace (s / (s / unamplified q eps)) with (unamplified q eps) by (field; lra). assumption.
  - intros b' [Hb' Lb]. apply (observed_failure any_value _ q s _ eps (- s) (laplace_family b' Hb') (laplace_shape b' Hb' s (Rlt_le _ _ Hs)) Hq Logic.I).
    unfold laplace_law. replace (- s + s) with 0 by ring. rewrite Rltb_false, Rltb_true by lra. replace (- 0 / b') with 0 by (field; lra). rewrite exp_0.
    assert (Q : exp eps - (1 - q) = q * exp (unamplified q eps)).
    { unfold unamplified. assert (1 < exp eps) by (rewrite <- exp_0; apply exp_increasing, He').
      rewrite exp_ln; [field; lra|]. assert (0 < (exp eps - 1) / q) by (apply Rdiv_lt_0_compat; lra). lra. }
    rewrite Q. replace (q * (1 - 1 / 2) - q * exp (unamplified q eps) * (exp (- s / b') / 2)) with (q / 2 * (1 - exp (unamplified q eps) * exp (- s / b'))) by field.
    rewrite <- exp_plus. apply Rmult_lt_0_compat; [lra|]. assert (exp (unamplified q eps + - s / b') < 1); [|lra].
    rewrite <- exp_0. apply exp_increasing. assert (unamplified q eps < s / b').
    { assert (UE : unamplified q eps = s / b) by (rewrite Eb; field; lra). rewrite UE. apply Rmult_lt_compat_l; [assumption|]. apply Rinv_lt_contravar; [nra | assumption]. }
    unfold Rdiv in *. lra.
Qed.
Lemma laplace_guarantee_total eps delta s q : 0 < eps -> 0 < s -> 0 < q <= 1 -> exists b, laplace_from_guarantee (eps, delta) s q = Ok (Fin b).
Proof.
  intros He Hs Hq. pose proof (unamplified_pos q eps Hq He) as U. exists (s / unamplified q eps). unfold laplace_from_guarantee, xsub. cbn [fst xneg xadd xdiv].
  rewrite (Reqb_false q 0) by lra. cbn [xadd]. unfold unamplified, Rminus in U.
  assert (1 < exp eps) by (rewrite <- exp_0; apply exp_increasing, He). assert (0 < (exp eps + - (1)) / q) by (apply Rdiv_lt_0_compat; lra).
  rewrite np_log_pos by lra. cbn [xdiv]. rewrite Reqb_false by lra. cbn [xleb]. rewrite Rleb_false by (apply Rdiv_lt_0_compat; assumption).
  rewrite check_additive_true by assumption. reflexivity.
Qed.

(** ** Discrete Laplace *)
Lemma dlaplace_bounded a s l x : 0 < a -> (0 <= s)%Z -> IZR s * a <= l -> x <> NaN ->
  at_end (dlaplace_law a) (xadd x (Fin (IZR s))) - exp l * at_end (dlaplace_law a) x <= 0.
Proof.
  intros Ha Hs Hl Nx. pose proof (dlaplace_shape a Ha s Hs) as HS. pose proof (IZR_le _ _ Hs) as Hs'.
  assert (E : at_end (dlaplace_law a) (xadd x (Fin (IZR s))) - exp l * at_end (dlaplace_law a) x =
    hend (gap (fun y => dlaplace_law a (y + IZR s)) (dlaplace_law a) (exp l)) (1 - exp l) x) by (rewrite at_end_shift; apply at_end_gap).
  rewrite E. pose proof HS as (HF & _ & HU). pose proof (exp_pos l).
  pose proof (uni_peaked (fun y => dlaplace_law a (y + IZR s)) (dlaplace_law a) (exp l) _ (cdf_shift _ (IZR s) HF) HF ltac:(lra) (HU l)) as PK.
  eapply Rle_trans; [apply (peaked_best _ _ _ PK x Nx)|].
  assert (LB : IZR s <= l / a). { apply (Rmult_le_reg_r a); [lra|]. replace (l / a * a) with l by (field; lra). assumption. }
  unfold dlaplace_peak. destruct (Rltb_spec (IZR s) (l / a)) as [L|L]; [cbn; lra|].
  assert (EQ : l / a = IZR s) by lra. assert (El : l = a * IZR s) by (rewrite <- EQ; field; lra).
  destruct (Rleb_spec (l / a) (- IZR s)) as [L2|L2].
  - assert (Z : IZR s = 0) by lra. rewrite Z in *. replace l with 0 by lra. cbn. rewrite exp_0. lra.
  - rewrite EQ. cbn [hend]. unfold gap, dlaplace_law. replace (1/2 * (- IZR s - IZR s)) with (IZR (- s)) by (rewrite opp_IZR; lra). rewrite Rfloor_IZR, <- plus_IZR, !Rfloor_IZR.
    replace (- s + s)%Z with 0%Z by lia. unfold dlaplace_G. cbn [Z.leb Z.compare].
    assert (S0 : (0 < s)%Z). { destruct (Z.eq_dec s 0) as [->|]; [|lia]. exfalso. rewrite EQ in L2. lra. }
    rewrite (proj2 (Z.leb_gt 0 (- s))) by lia. replace (- a * 0) with 0 by ring. rewrite exp_0, opp_IZR.
    replace (a * (- IZR s + 1)) with (- l + a) by (rewrite El; ring). pose proof (exp_pos a).
    unfold Rdiv. rewrite <- Rmult_assoc, <- exp_plus. replace (l + (- l + a)) with a by ring. apply Req_le. field. lra.
Qed.
Lemma dlaplace_guarantee_eq eps delta s q a : 0 <= eps -> dlaplace_from_guarantee (eps, delta) s q = Ok (Fin a) ->
  (0 < s)%Z /\ 0 < q <= 1 /\ 0 < eps /\ a = unamplified q eps / IZR s.
Proof.
  intros He. unfold dlaplace_from_guarantee. destruct (Z.leb_spec s 0) as [|Hs]; [discriminate|]. cbn [fst].
  destruct (Rleb_spec q 0); [discriminate|]. cbn [orb]. destruct (isclose (Fin q) (Fin 0)); [discriminate|]. 
  set (b0 := xdiv (np_log _) _). destruct (xleb b0 (Fin 0)) eqn:L; [discriminate|].
  destruct (check_additive (IZR s) q) eqn:C; cbn [bind]; [|discriminate]. apply check_additive_ok in C. destruct C as [Hs' Hq].
  intros [= H]. split; [assumption|]. split; [assumption|]. revert H L. unfold b0, xsub. cbn [xneg xadd xdiv]. rewrite (Reqb_false q 0) by lra. cbn [xadd].
  assert (E1 : 1 <= exp eps) by (rewrite <- exp_0; apply exp_le, He).
  assert (P : 0 <= (exp eps + - (1)) / q) by (apply Rmult_le_pos; [lra | left; apply Rinv_0_lt_compat; lra]).
  rewrite np_log_pos by lra. cbn [xdiv]. rewrite Reqb_false by lra. intros [= <-] L. split; [|reflexivity].
  destruct He as [He|<-]; [assumption|]. exfalso. revert L. rewrite exp_0. replace ((1 + - (1)) / q) with 0 by (field; lra).
  rewrite Rplus_0_r, ln_1. cbn. rewrite Rleb_true; [discriminate|]. unfold Rdiv. rewrite Rmult_0_l. lra.
Qed.
Lemma dlaplace_guarantee eps delta s q a F : 0 <= eps -> dlaplace_from_guarantee (eps, delta) s q = Ok (Fin a) ->
  integer_noise (dlaplace_weights a) F ->
  0 < a /\ (forall E, noisy_query integer_value F q (IZR s) E -> dp_both E eps 0) /\
  (forall a' F', a < a' -> integer_noise (dlaplace_weights a') F' -> exists E, noisy_query integer_value F' q (IZR s) E /\ ~ dp E eps 0).
Proof.
  intros He H HF. apply dlaplace_guarantee_eq in H; [|assumption]. destruct H as (Hs & Hq & He' & Ea). pose proof (IZR_lt _ _ Hs) as Hs'.
  pose proof (unamplified_pos q eps Hq He') as U. assert (Ha : 0 < a) by (rewrite Ea; apply Rdiv_lt_0_compat; assumption).
  assert (F = dlaplace_law a) as -> by (apply functional_extensionality, (integer_noise_unique (dlaplace_weights a)); [exact HF | apply dlaplace_noise, Ha]).
  split; [assumption|]. split.
  - intros E. apply (pure_guarantee integer_value _ q (IZR s) _ eps E (dlaplace_family a Ha) (dlaplace_shape a Ha s ltac:(lia)) Hq (ex_intro _ s eq_refl) He').
    intros l Hl x Nx. apply dlaplace_bounded; [assumption | lia | | assumption]. rewrite Ea. replace (IZR s * (unamplified q eps / IZR s)) with (unamplified q eps) by (field; lra). assumption.
  - intros a' F' La HF'. assert (Ha' : 0 < a') by lra.
    assert (F' = dlaplace_law a') as -> by (apply functional_extensionality, (integer_noise_unique (dlaplace_weights a')); [exact HF' | apply dlaplace_noise, Ha']).
    apply (observed_failure integer_value _ q (IZR s) _ eps (- IZR s) (dlaplace_family a' Ha') (dlaplace_shape a' Ha' s ltac:(lia)) Hq (ex_intro _ s eq_refl)).
    unfold dlaplace_law. replace (- IZR s + IZR s) with (IZR 0) by (cbn; ring). rewrite <- opp_IZR, !Rfloor_IZR. unfold dlaplace_G. cbn [Z.leb Z.compare].
    rewrite (proj2 (Z.leb_gt 0 (- s))) by lia. replace (- a' * 0) with 0 by ring. rewrite exp_0, opp_IZR.
    assert (Q : exp eps - (1 - q) = q * exp (unamplified q eps)).
    { unfold unamplified. assert (1 < exp eps) by (rewrite <- exp_0; apply exp_increasing, He').
      rewrite exp_ln; [field; lra|]. assert (0 < (exp eps - 1) / q) by (apply Rdiv_lt_0_compat; lra). lra. }
    rewrite Q. pose proof (exp_pos a'). replace (a' * (- IZR s + 1)) with (- (a' * IZR s) + a') by ring. rewrite exp_plus.
    replace (q * (1 - 1 / (exp a' + 1)) - q * exp (unamplified q eps) * (exp (- (a' * IZR s)) * exp a' / (exp a' + 1)))
      with (q * exp a' / (exp a' + 1) * (1 - exp (unamplified q eps) * exp (- (a' * IZR s)))) by (field; lra).
    rewrite <- exp_plus. apply Rmult_lt_0_compat; [apply Rdiv_lt_0_compat; nra|]. assert (exp (unamplified q eps + - (a' * IZR s)) < 1); [|lra].
    rewrite <- exp_0. apply exp_increasing. assert (UE : unamplified q eps = a * IZR s) by (rewrite Ea; field; lra). nra.
Qed.

(** ** Gaussian *)
Lemma remove_away q eps : 0 < q <= 1 -> 0 < eps -> ~ near_limit REMOVE q eps.
Proof.
  intros Hq He [q1 N]. cbn [loss_limit] in N. assert (ln (1 - q) < 0) by (rewrite <- ln_1; apply ln_increasing; lra).
  rewrite (Rabs_right (eps - ln (1 - q))) in N by lra. rewrite (Rabs_right eps), (Rabs_left (ln (1 - q))) in N by lra.
  revert N. unfold Rmax. destruct (Rle_dec eps (- ln (1 - q))); lra.
Qed.
Lemma gaussian_guarantee Phi ppf fuel eps delta s q x : normal_cdf Phi -> 0 <= eps -> 0 <= delta <= 1 -> 0 < s ->
  gaussian_from_guarantee Phi ppf fuel (eps, delta) s q = Ok x ->
  exists sigma, x = Fin sigma /\ 0 < sigma /\
    forall E, noisy_query any_value (fun y => Phi (y / sigma)) q s E -> dp_both E eps delta.
Proof.
  intros HP He Hd Hs. unfold gaussian_from_guarantee. destruct (Reqb_spec delta 0); [discriminate|]. destruct (Reqb_spec eps 0); [discriminate|].
  set (guess := sqrt (2 * ln (3 / 2 / delta)) * s / eps).
  assert (G : 0 < guess).
  { unfold guess. apply Rdiv_lt_0_compat; [|lra]. apply Rmult_lt_0_compat; [|assumption]. apply sqrt_lt_R0.
    assert (0 < ln (3/2/delta)); [|lra]. rewrite <- ln_1. apply ln_increasing; [lra|].
    apply (Rmult_lt_reg_r delta); [lra|]. replace (3/2/delta * delta) with (3/2) by (field; lra). lra. }
  change (mkSearch (Fin 0) PInf (Some (Fin guess)) (Fin (1 / 10 ^ 7)) false) with (params_of 0 PInf (Some guess) (1 / 10 ^ 7) false).
  destruct (inverse_monotone_function _ _ _ _ _) as [r|] eqn:I; cbn [bind]; [|discriminate].
  assert (OK : search_ok 0 PInf (Some guess) (1 / 10 ^ 7) false).
  { split; [lra|]. split; [discriminate|]. split; [lra|]. discriminate. }
  destruct (inverse_decreasing _ _ _ _ _ _ _ _ _ OK I) as [_ HM]. destruct r as [x0|]; [|discriminate].
  destruct (HM x0 eq_refl) as (sg & -> & Rg & (v & Fv & Mv) & _).
  unfold delta_for_sigma in Fv. destruct (GaussianPrivacyLoss Phi ppf sg s true (-50) q REMOVE) as [m|] eqn:Em; cbn [bind] in Fv |- *; [|discriminate].
  intros [= <-]. pose proof (gaussian_ok _ _ _ _ _ _ _ _ _ Em) as [(Hsg & Hs' & Hq & _) _].
  exists sg. split; [reflexivity|]. split; [assumption|]. intros E HE.
  destruct (mech_delta _ _ _ _ _ _ _ (gaussian_noise m Phi ppf sg s true (-50) q REMOVE HP Em) eps (remove_away q eps Hq ltac:(lra))) as (d & Ed & Dd).
  rewrite Ed in Fv. injection Fv as <-. cbn in Mv. assert (Ld : d <= delta) by (revert Mv; destruct (Rltb_spec delta d); [discriminate | lra]).
  change (fun y => Phi (y / sg)) with (gaussian_law Phi sg) in *. cbn [upper_law lower_law] in Dd.
  pose proof (gaussian_shape Phi sg HP Hsg s ltac:(lra)) as HS.
  pose proof (divergence_peak _ _ _ _ (add_peaked _ s _ q eps HS Hq)) as DA.
  pose proof (add_le_remove _ s _ q eps _ _ HS Hq He Dd DA) as A0.
  destruct (noisy_query_bounded any_value _ (gaussian_family Phi sg HP Hsg) q s Hq ltac:(lra) Logic.I E eps _ _ HE Dd DA) as (V & D1 & D2).
  split; intros S; [specialize (D1 S) | specialize (D2 S)]; lra.
Qed.
