(** Noise mechanisms on a discretization grid that may meet the limit of the privacy loss. *)
From Verif Require Import Base XReal Exn PyDict TypesAdjacency ModelPmf ModelPld ModelMake ModelMech SpecDP SpecPmf SpecPld SpecMech SpecClasses SpecConstruct SpecAccErr
  ProofDP ProofPmf ProofPeak ProofNoise ProofShape ProofShapeGauss ProofAdditive ProofClasses ProofMechTop ProofDots ProofDotsMech ProofTailClasses ProofFindTotal ProofInfMass ProofErrDots.
Local Arguments Rltb : simpl never.
Local Arguments Rleb : simpl never.
Local Arguments Reqb : simpl never.

Definition grid_error (q : R) : R := if Rltb q 1 then near_error q else 0.
Lemma grid_error_nonneg q : 0 <= grid_error q.
Proof.
  unfold grid_error. destruct (Rltb q 1); [|lra]. unfold near_error. pose proof (Rabs_pos (ln (1 - q))) as A.
  pose proof (exp_ineq1_le (2 / 10 ^ 9 * Rabs (ln (1 - q)))) as B. assert (0 <= 2 / 10 ^ 9 * Rabs (ln (1 - q))) by (apply Rmult_le_pos; lra). lra.
Qed.
Lemma near_distance adj q e : near_limit adj q e -> exp (Rabs (e - loss_limit adj q)) - 1 <= grid_error q.
Proof.
  intros (Hq & N). unfold grid_error. rewrite Rltb_true by exact Hq. unfold near_error. apply Rplus_le_compat_r, exp_le.
  assert (EL : Rabs (loss_limit adj q) = Rabs (ln (1 - q))) by (unfold loss_limit; destruct adj; [apply Rabs_Ropp | reflexivity]). rewrite EL in N.
  pose proof (Rabs_triang (e - loss_limit adj q) (loss_limit adj q)) as T. replace (e - loss_limit adj q + loss_limit adj q) with e in T by ring. rewrite EL in T.
  set (x := Rabs (e - loss_limit adj q)) in *. set (y := Rabs (ln (1 - q))) in *. set (z := Rabs e) in *. assert (0 <= y) by apply Rabs_pos.
  revert N. unfold Rmax. destruct (Rle_dec z y); intros N; lra.
Qed.

Section Near.
  Context (m : monotone) (ok : R -> Prop) (F f : R -> R) (s q : R) (adj : adjacency).
  Hypothesis HA : additive_noise m ok F f s q adj.
  Notation U := (upper_law adj F q s).
  Notation L := (lower_law adj F q s).
  Lemma delta_nearly eps : exists d delta, get_delta_for_epsilon m eps = Ok (Fin d) /\ divergence_is U L eps delta /\ d <= delta <= d + grid_error q.
  Proof.
    pose proof (grid_error_nonneg q). destruct (near_dec q adj eps) as [N|N].
    - destruct (mech_delta_near _ _ _ _ _ _ _ HA eps N) as (d & delta & E & D & B). exists d, delta. pose proof (near_distance adj q eps N). repeat split; try assumption; try lra; apply D.
    - destruct (mech_delta _ _ _ _ _ _ _ HA eps N) as (d & E & D). exists d, d. repeat split; try assumption; try lra; apply D.
  Qed.
  Lemma dots_nearly disc p : 0 < disc -> dots_pmf m disc = Ok p ->
    sound_pmf p /\ forall eps delta, divergence_is U L eps delta -> delta <= pmf_delta p (Fin eps) + grid_error q.
  Proof.
    intros Hd HP. destruct (dots_pmf_grid _ _ _ Hd HP) as (eps & ds & HD & HC). split; [apply (dots_sound disc _ _ _ Hd HC)|].
    intros e delta [_ (cuts & SC & <-)]. destruct (additive_laws _ _ _ _ _ _ _ HA) as [CU CL].
    apply dp_iff_hockey. apply (dots_within disc eps ds p _ (grid_error q) Hd HC (observe_valid _ _ _ CU CL SC) (grid_error_nonneg q)).
    intros z d Hz. apply (deltas_at_in _ _ _ _ _ _ HD) in Hz. destruct (delta_nearly (IZR z * disc)) as (d' & dl & E' & [D' _] & B). rewrite E' in Hz. injection Hz as <-.
    rewrite <- hockey_hs. specialize (D' cuts SC). lra.
  Qed.
  Lemma inf_nearly disc p c b : 0 < disc -> reaches m disc c -> dots_pmf m disc = Ok p ->
    (forall e d, c <= e -> divergence_is U L e d -> d <= b) -> infinity_mass p <= b.
  Proof.
    intros Hd HR HP HB. destruct (dots_grid m disc p c Hd HR HP) as (eps & ds & z & HD & HC & Hz & Lz).
    destruct (dots_ok disc Hd _ _ _ HC) as (C1 & _). rewrite C1 in Hz. apply in_map_iff in Hz as ([z' d] & Ez & I). cbn [fst] in Ez. subst z'.
    pose proof (dots_last disc eps ds p z d Hd HC I). apply (deltas_at_in _ _ _ _ _ _ HD) in I.
    destruct (delta_nearly (IZR z * disc)) as (d' & dl & E' & D' & B). rewrite E' in I. injection I as <-. pose proof (HB _ _ Lz D'). lra.
  Qed.
End Near.

(** one pmf for each direction (or one for both) *)
Section PairNear.
  Context (cls : adjacency -> res monotone) (ok : R -> Prop) (F f : R -> R) (s q err : R) (build : monotone -> res pmf).
  Hypothesis HC : forall adj m, cls adj = Ok m -> additive_noise m ok F f s q adj.

  Lemma subsampled_near D : (forall adj m p, cls adj = Ok m -> build m = Ok p ->
      forall eps delta, divergence_is (upper_law adj F q s) (lower_law adj F q s) eps delta -> delta <= pmf_delta p (Fin eps) + err) ->
    subsampled_pld (fun adj => let? m := cls adj in build m) q = Ok D ->
    forall E, noisy_query ok F q s E -> pld_within err D E.
  Proof.
    intros HB. unfold subsampled_pld. destruct (cls REMOVE) as [mr|] eqn:Er; cbn [bind]; [|discriminate].
    destruct (build mr) as [r|] eqn:Br; cbn [bind]; [|discriminate].
    pose proof (HB _ _ _ Er Br) as Ar. pose proof (HC _ _ Er) as Nr. cbn [upper_law lower_law] in Ar.
    destruct (additive_instance _ _ _ _ _ _ _ Nr) as [Hq Hs Ho Hf (pk & cdf & loss0 & inv0 & pt & L & disc & tail & bounds & E & HF & _)].
    pose proof (fun eps => delta_at_peak _ _ _ _ _ HF q Hq REMOVE eps) as DR.
    pose proof (fun eps => delta_at_peak _ _ _ _ _ HF q Hq ADD eps) as DA. cbn [upper_law lower_law] in DR, DA.
    assert (K : forall E (a : pmf), noisy_query ok F q s E ->
      (forall eps, delta_at F s q ADD eps (peak ADD q s pk eps) <= pmf_delta a (Fin eps) + err) ->
      valid E /\ profile_bounds (fun eps => pmf_delta r (Fin eps) + err) E /\ profile_bounds (fun eps => pmf_delta a (Fin eps) + err) (swap E)).
    { intros E0 a HE Ha. assert (B : forall eps, valid E0 /\ dp E0 eps (pmf_delta r (Fin eps) + err) /\ dp (swap E0) eps (pmf_delta a (Fin eps) + err)).
      { intros eps. destruct (noisy_query_bounded ok F Hf q s Hq (Rlt_le _ _ Hs) Ho E0 eps _ _ HE (DR eps) (DA eps)) as (V & D1 & D2).
        split; [assumption|]. split; intros S; [specialize (D1 S); specialize (Ar eps _ (DR eps)) | specialize (D2 S); specialize (Ha eps)]; lra. }
      split; [apply (B 0)|]. split; intros eps; apply B. }
    destruct (Reqb_spec q 1) as [Q|Q].
    - intros [= <-] E0 HE. apply (K E0 r HE). intros eps. specialize (Ar eps _ (DR eps)). subst q.
      eapply Rle_trans; [|exact Ar]. right. rewrite !peak_1, delta_at_add, delta_at_remove.
      replace (xadd (xadd (pk eps) (Fin s)) (Fin (- s))) with (pk eps); [ring|].
      destruct (pk eps) as [a| | |]; cbn; try reflexivity. f_equal. ring.
    - destruct (cls ADD) as [ma|] eqn:Ea; cbn [bind]; [|discriminate]. destruct (build ma) as [a|] eqn:Ba; cbn [bind]; [|discriminate].
      intros [= <-] E0 HE. apply (K E0 a HE). intros eps. apply (HB _ _ _ Ea Ba eps _ (DA eps)).
  Qed.

  Hypothesis HB : forall adj m p, cls adj = Ok m -> build m = Ok p ->
    sound_pmf p /\ forall eps delta, divergence_is (upper_law adj F q s) (lower_law adj F q s) eps delta -> delta <= pmf_delta p (Fin eps) + err.
  Lemma subsampled_within D : subsampled_pld (fun adj => let? m := cls adj in build m) q = Ok D ->
    sound_pld D /\ forall E, noisy_query ok F q s E -> pld_within err D E.
  Proof.
    intros HD. split; [|exact (subsampled_near D (fun adj m p Hm Hp => proj2 (HB adj m p Hm Hp)) HD)]. revert HD.
    unfold subsampled_pld. destruct (cls REMOVE) as [mr|] eqn:Er; cbn [bind]; [|discriminate].
    destruct (build mr) as [r|] eqn:Br; cbn [bind]; [|discriminate]. destruct (HB _ _ _ Er Br) as [Sr _]. destruct (Reqb_spec q 1) as [Q|Q].
    - intros [= <-]. split; [assumption|]. split; [assumption | reflexivity].
    - destruct (cls ADD) as [ma|] eqn:Ea; cbn [bind]; [|discriminate]. destruct (build ma) as [a|] eqn:Ba; cbn [bind]; [|discriminate].
      intros [= <-]. destruct (HB _ _ _ Ea Ba) as [Sa _]. split; [assumption|]. split; [assumption | discriminate].
  Qed.
End PairNear.

Lemma pair_inf (single : adjacency -> res pmf) q D b : subsampled_pld single q = Ok D ->
  (forall adj p, single adj = Ok p -> infinity_mass p <= b) -> infinity_mass (pmf_remove D) <= b /\ infinity_mass (pmf_add D) <= b.
Proof.
  unfold subsampled_pld. intros HD K. destruct (single REMOVE) as [r|] eqn:Er; [|discriminate]. cbn [bind] in HD.
  destruct (Reqb q 1); [injection HD as <-; cbn; split; apply (K _ _ Er)|].
  destruct (single ADD) as [a|] eqn:Ea; [|discriminate]. injection HD as <-. split; [apply (K _ _ Er) | apply (K _ _ Ea)].
Qed.

Lemma laplace_within fuel b s disc q D : 0 < disc -> from_laplace_mechanism fuel b s true disc q true = Ok D ->
  sound_pld D /\ (forall E, noisy_query any_value (laplace_law b) q s E -> pld_within (grid_error q) D E) /\
  infinity_mass (pmf_remove D) <= 0 /\ infinity_mass (pmf_add D) <= 0.
Proof.
  intros Hd HD. unfold from_laplace_mechanism in HD.
  pose proof (fun adj m Hm => laplace_noise m b s q adj Hm) as HC.
  pose proof (fun HB => subsampled_within (LaplacePrivacyLoss b s q) _ _ _ s q (grid_error q) (fun m => monotone_pmf fuel m true disc true) HC HB D HD) as K. destruct K as [S B].
  - intros adj m p Hm. unfold monotone_pmf. cbn [andb]. intros Hp. apply (dots_nearly m _ _ _ s q adj (laplace_noise m b s q adj Hm) disc p Hd Hp).
  - split; [exact S|]. split; [exact B|]. apply (pair_inf _ q D 0 HD). intros adj p. destruct (LaplacePrivacyLoss b s q adj) as [m|] eqn:Em; [|discriminate]. cbn [bind]. unfold monotone_pmf. cbn [andb]. intros Hp.
    destruct (laplace_reach b s q adj disc m Hd Em) as (u & HR & HB). apply (inf_nearly m _ _ _ s q adj (laplace_noise m b s q adj Em) disc p u 0 Hd HR Hp HB).
Qed.
Lemma gaussian_within Phi ppf fuel sigma s lb disc q D : normal_cdf Phi -> quantile_of Phi ppf -> lb <= 0 -> 0 < disc -> from_gaussian_mechanism Phi ppf fuel sigma s true disc lb q true = Ok D ->
  sound_pld D /\ (forall E, noisy_query any_value (gaussian_law Phi sigma) q s E -> pld_within (grid_error q) D E) /\
  infinity_mass (pmf_remove D) <= 1/2 * exp lb /\ infinity_mass (pmf_add D) <= 1/2 * exp lb.
Proof.
  intros HPhi HQ Hlb Hd HD. unfold from_gaussian_mechanism in HD.
  pose proof (fun adj m Hm => gaussian_noise m Phi ppf sigma s true lb q adj HPhi Hm) as HC.
  pose proof (fun HB => subsampled_within (GaussianPrivacyLoss Phi ppf sigma s true lb q) _ _ _ s q (grid_error q) (fun m => monotone_pmf fuel m true disc true) HC HB D HD) as K. destruct K as [S B].
  - intros adj m p Hm. unfold monotone_pmf. cbn [andb]. intros Hp. apply (dots_nearly m _ _ _ s q adj (gaussian_noise m Phi ppf sigma s true lb q adj HPhi Hm) disc p Hd Hp).
  - split; [exact S|]. split; [exact B|]. apply (pair_inf _ q D _ HD). intros adj p. destruct (GaussianPrivacyLoss Phi ppf sigma s true lb q adj) as [m|] eqn:Em; [|discriminate]. cbn [bind]. unfold monotone_pmf. cbn [andb]. intros Hp.
    destruct (gaussian_reach Phi ppf sigma s lb q adj disc m HPhi HQ Hlb Hd Em) as (u & HR & HB). apply (inf_nearly m _ _ _ s q adj (gaussian_noise m Phi ppf sigma s true lb q adj HPhi Em) disc p u _ Hd HR Hp HB).
Qed.
