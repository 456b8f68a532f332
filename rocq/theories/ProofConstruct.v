(** The constructors of privacy loss distributions from additive noise mechanisms. *)
From Coq Require Import FunctionalExtensionality.
From Verif Require Import Base XReal Exn PyDict TypesAdjacency ModelPmf ModelPld ModelMake ModelMech SpecDP SpecPmf SpecPld SpecMech SpecClasses SpecConstruct
  ProofDP ProofDict ProofPmf ProofMake ProofPeak ProofNoise ProofShape ProofShapeGauss ProofShapeInt ProofAdditive ProofClasses ProofMechTop ProofDotsMech ProofBuckets ProofTails ProofTailClasses.
Local Arguments Rltb : simpl never.
Local Arguments Rleb : simpl never.
Local Arguments Reqb : simpl never.

(** the two constructions, for one class and one direction *)
Lemma laplace_buckets b s q adj disc pess fuel m r : 0 < disc -> (forall z, ~ near_limit adj q (IZR z * disc)) ->
  LaplacePrivacyLoss b s q adj = Ok m -> buckets_pmf fuel m pess disc = Ok r ->
  wf r /\ infinity_mass r <= 1 /\ pessimistic_estimate r = pess /\
  (if pess then curve_above r else curve_below r) (upper_law adj (laplace_law b) q s) (lower_law adj (laplace_law b) q s).
Proof.
  intros Hd HN Hm. apply laplace_ok in Hm. destruct Hm as [(Hb & Hs & Hq) ->]. intros H.
  pose proof (buckets_good _ _ _ _ _ _ _ _ (laplace_fits b s Hb Hs) (laplace_loses b s Hb Hs) q Hq adj false (laplace_tail b s q adj) (laplace_bounds b s q adj)
    disc Hd pess fuel r (fun _ => HN) (laplace_tail_ok b s q adj _ disc pess Hb Hs Hq Hd HN) H) as G. destruct pess; exact G.
Qed.
Lemma gaussian_buckets Phi ppf sigma s lb q adj disc pess fuel m r : normal_cdf Phi -> quantile_of Phi ppf -> 0 < disc ->
  (forall z, ~ near_limit adj q (IZR z * disc)) ->
  GaussianPrivacyLoss Phi ppf sigma s pess lb q adj = Ok m -> buckets_pmf fuel m pess disc = Ok r ->
  wf r /\ infinity_mass r <= 1 /\ pessimistic_estimate r = pess /\
  (if pess then curve_above r else curve_below r) (upper_law adj (gaussian_law Phi sigma) q s) (lower_law adj (gaussian_law Phi sigma) q s).
Proof.
  intros HP HQ Hd HN Hm. apply gaussian_ok in Hm. destruct Hm as [(Hb & Hs & Hq & Hlb) ->]. intros H.
  pose proof (buckets_good _ _ _ _ _ _ _ _ (gaussian_fits Phi sigma s HP Hb Hs) (gaussian_loses sigma s Hb Hs) q Hq adj false (gaussian_tail Phi ppf sigma s pess lb q adj)
    (gaussian_bounds Phi ppf sigma s pess lb q adj)
    disc Hd pess fuel r (fun _ => HN) (gaussian_tail_ok Phi ppf sigma s q adj _ lb disc pess HP HQ Hb Hs Hlb Hq Hd HN) H) as G. destruct pess; exact G.
Qed.
Lemma dlaplace_buckets a s q adj disc pess fuel m r : 0 < disc -> (pess = false -> forall z, ~ near_limit adj q (IZR z * disc)) ->
  DiscreteLaplacePrivacyLoss a s q adj = Ok m -> buckets_pmf fuel m pess disc = Ok r ->
  wf r /\ infinity_mass r <= 1 /\ pessimistic_estimate r = pess /\
  (if pess then curve_above r else curve_below r) (upper_law adj (dlaplace_law a) q (IZR s)) (lower_law adj (dlaplace_law a) q (IZR s)).
Proof.
  intros Hd HN Hm. apply dlaplace_ok in Hm. destruct Hm as [(Ha & Hs & Hq) ->]. intros H.
  pose proof (buckets_good _ _ _ _ _ _ _ _ (dlaplace_fits a s Ha Hs) (dlaplace_loses a s Ha Hs) q Hq adj true (dlaplace_tail a s q adj) (dlaplace_bounds s adj)
    disc Hd pess fuel r HN (dlaplace_tail_ok a s q adj _ disc pess Ha Hs Hq Hd HN) H) as G. destruct pess; exact G.
Qed.
Lemma dgauss_buckets sigma s T q adj disc pess fuel m r : 0 < disc -> (pess = false -> forall z, ~ near_limit adj q (IZR z * disc)) ->
  DiscreteGaussianPrivacyLoss sigma s T q adj = Ok m -> buckets_pmf fuel m pess disc = Ok r ->
  wf r /\ infinity_mass r <= 1 /\ pessimistic_estimate r = pess /\
  (if pess then curve_above r else curve_below r) (upper_law adj (dgaussian_law sigma T) q (IZR s)) (lower_law adj (dgaussian_law sigma T) q (IZR s)).
Proof.
  intros Hd HN Hm. apply dgauss_ok in Hm. destruct Hm as [(Hb & Hs & HT & Hq) ->]. intros H.
  pose proof (buckets_good _ _ _ _ _ _ _ _ (dgauss_fits sigma s T Hb Hs ltac:(lia)) (dgauss_loses sigma s T Hb Hs HT) q Hq adj true (dgauss_tail sigma s T q adj) (dgauss_bounds s T q adj)
    disc Hd pess fuel r HN (dgauss_tail_ok sigma s T q adj _ disc pess Hb Hs HT Hq Hd) H) as G. destruct pess; exact G.
Qed.

(** every call is an instance of the following *)
Definition built (fuel : nat) (pess dots : bool) (disc q : R) (r : res pld) (ok : R -> Prop) (F : R -> R) (s : R) : Prop :=
  exists cls f, (forall adj m, cls adj = Ok m -> additive_noise m ok F f s q adj) /\
    (forall adj m p, cls adj = Ok m -> buckets_pmf fuel m pess disc = Ok p ->
      wf p /\ infinity_mass p <= 1 /\ pessimistic_estimate p = pess /\
      (if pess then curve_above p else curve_below p) (upper_law adj F q s) (lower_law adj F q s)) /\
    r = subsampled_pld (fun adj => let? m := cls adj in monotone_pmf fuel m pess disc dots) q.
Lemma from_built fuel pess dots disc q r ok F s : 0 < disc -> grid_clear disc q -> from_mechanism fuel pess dots disc q r ok F s -> built fuel pess dots disc q r ok F s.
Proof.
  intros Hd HG [b s' _ _ <- | Phi ppf sigma s' lb HP HQ _ _ _ <- | a s' F' HF _ _ <- | sigma s' bound F' HF _ _ <-].
  - exists (LaplacePrivacyLoss b s' q). eexists. split; [intros adj m Hm; apply laplace_noise; exact Hm|]. split; [|reflexivity].
    intros adj m p Hm. apply (laplace_buckets b s' q adj disc pess fuel m p Hd (HG adj) Hm).
  - exists (GaussianPrivacyLoss Phi ppf sigma s' pess lb q). eexists. split; [intros adj m Hm; eapply gaussian_noise; [exact HP | exact Hm]|]. split; [|reflexivity].
    intros adj m p Hm. apply (gaussian_buckets Phi ppf sigma s' lb q adj disc pess fuel m p HP HQ Hd (HG adj) Hm).
  - exists (DiscreteLaplacePrivacyLoss a s' q). eexists. split; [intros adj m Hm; apply (discrete_laplace_noise m a s' q adj F' HF Hm)|]. split; [|reflexivity].
    intros adj m p Hm Hp. pose proof Hm as Hm'. apply dlaplace_ok in Hm'. destruct Hm' as [(Ha & _) _].
    assert (F' = dlaplace_law a) as -> by (apply functional_extensionality, (integer_noise_unique (dlaplace_weights a)); [exact HF | apply dlaplace_noise, Ha]).
    apply (dlaplace_buckets a s' q adj disc pess fuel m p Hd (fun _ => HG adj) Hm Hp).
  - set (T := default_bound sigma bound) in *. exists (DiscreteGaussianPrivacyLoss sigma s' T q). eexists.
    split; [intros adj m Hm; apply (discrete_gaussian_noise m sigma s' T q adj F' HF Hm)|]. split; [|reflexivity].
    intros adj m p Hm Hp. pose proof Hm as Hm'. apply dgauss_ok in Hm'. destruct Hm' as [(Hb & Hs & HT & _) _].
    assert (F' = dgaussian_law sigma T) as -> by (apply functional_extensionality, (integer_noise_unique (dgaussian_weights sigma T)); [exact HF | apply dgaussian_noise; (assumption || lia)]).
    apply (dgauss_buckets sigma s' T q adj disc pess fuel m p Hd (fun _ => HG adj) Hm Hp).
Qed.

Lemma constructed_sound fuel dots disc q D ok F s : 0 < disc -> grid_clear disc q -> from_mechanism fuel true dots disc q (Ok D) ok F s ->
  sound_pld D /\ forall E, noisy_query ok F q s E -> pld_bounds D E.
Proof.
  intros Hd HG HM. destruct (from_built _ _ _ _ _ _ _ _ _ Hd HG HM) as (cls & f & HC & HB & E). symmetry in E.
  revert E. apply (subsampled_sound cls ok F f s q (fun m => monotone_pmf fuel m true disc dots) HC).
  intros adj m p Hm. unfold monotone_pmf. destruct dots; cbn [andb]; intros Hp.
  - apply (dots_above m ok F f s q adj disc p Hd (HC adj m Hm) (HG adj) Hp).
  - destruct (HB adj m p Hm Hp) as (W & I & P & C). split; [split; [exact W | split; assumption] | exact C].
Qed.

Lemma remove_law F q s : remove_upper F q s = sampled q (add_noise F 0) (add_noise F (0 + - s)).
Proof. apply functional_extensionality. intros x. unfold remove_upper, sampled, add_noise.
  replace (x - 0) with x by ring. replace (x - (0 + - s)) with (x + s) by ring. reflexivity. Qed.
Lemma add_law F q s : add_lower F q s = sampled q (add_noise F 0) (add_noise F (0 + s)).
Proof. apply functional_extensionality. intros x. unfold add_lower, sampled, add_noise.
  replace (x - 0) with x by ring. replace (x - (0 + s)) with (x - s) by ring. reflexivity. Qed.
Lemma zero_law F : F = add_noise F 0.
Proof. apply functional_extensionality. intros x. unfold add_noise. f_equal. ring. Qed.
Lemma extreme_remove ok F q s cuts : noise_family ok F -> ok s -> 0 < s -> StronglySorted Rlt cuts ->
  noisy_query ok F q s (observe (remove_upper F q s) F cuts).
Proof.
  intros (_ & _ & On & _ & O0) Os Hs HC. exists 0, (- s), cuts. split; [assumption|]. split; [apply On, Os|].
  split; [rewrite Rabs_Ropp, Rabs_right; lra|]. split; [assumption|]. rewrite <- remove_law, <- zero_law. reflexivity.
Qed.
Lemma extreme_add ok F q s cuts : noise_family ok F -> ok s -> 0 < s -> StronglySorted Rlt cuts ->
  noisy_query ok F q s (swap (observe F (add_lower F q s) cuts)).
Proof.
  intros (_ & _ & On & _ & O0) Os Hs HC. exists 0, s, cuts. split; [assumption|]. split; [assumption|].
  split; [rewrite Rabs_right; lra|]. split; [assumption|]. rewrite <- add_law, <- zero_law. apply swap_observe.
Qed.
Lemma constructed_optimistic fuel dots disc q D ok F s : 0 < disc -> grid_clear disc q -> from_mechanism fuel false dots disc q (Ok D) ok F s ->
  wf_pld D /\ inf_le_1 D /\ pessimistic_estimate (pmf_remove D) = false /\ pessimistic_estimate (pmf_add D) = false /\
  forall eps, exists E, noisy_query ok F q s E /\
    (pld_delta D (Fin eps) <= hockey_stick E eps \/ pld_delta D (Fin eps) <= hockey_stick (swap E) eps).
Proof.
  intros Hd HG HM. destruct (from_built _ _ _ _ _ _ _ _ _ Hd HG HM) as (cls & f & HC & HB & E). symmetry in E.
  revert E. unfold subsampled_pld. destruct (cls REMOVE) as [mr|] eqn:Er; cbn [bind]; [|discriminate].
  assert (MB : forall m, monotone_pmf fuel m false disc dots = buckets_pmf fuel m false disc) by (intros; unfold monotone_pmf; rewrite andb_false_r; reflexivity).
  rewrite !MB. destruct (buckets_pmf fuel mr false disc) as [r|] eqn:Br; cbn [bind]; [|discriminate].
  destruct (HB _ _ _ Er Br) as (Wr & Ir & Pr & Cr). pose proof (HC _ _ Er) as Nr. cbn [upper_law lower_law] in Cr.
  destruct (additive_instance _ _ _ _ _ _ _ Nr) as [Hq Hs Ho Hf (pk & cdf & loss0 & inv0 & pt & L & dc & tail & bounds & E & HF & _)].
  assert (XR : forall eps, exists E, noisy_query ok F q s E /\ pmf_delta r (Fin eps) <= hockey_stick E eps).
  { intros eps. destruct (divergence_exists _ _ _ _ _ _ _ eps Nr) as [d D1]. specialize (Cr eps d D1). destruct D1 as [_ (cuts & SC & <-)].
    eexists. split; [apply (extreme_remove ok F q s cuts Hf Ho Hs SC) | exact Cr]. }
  destruct (Reqb_spec q 1) as [Q|Q].
  - intros [= <-]. split; [split; [assumption|]; split; [assumption | reflexivity]|]. split; [split; assumption|]. split; [assumption|]. split; [assumption|].
    intros eps. destruct (XR eps) as (E0 & HE & B). exists E0. split; [assumption | left; exact B].
  - destruct (cls ADD) as [ma|] eqn:Ea; cbn [bind]; [|discriminate]. rewrite MB. destruct (buckets_pmf fuel ma false disc) as [a|] eqn:Ba; cbn [bind]; [|discriminate].
    intros [= <-]. destruct (HB _ _ _ Ea Ba) as (Wa & Ia & Pa & Ca). cbn [upper_law lower_law] in Ca.
    split; [split; [assumption|]; split; [assumption | discriminate]|]. split; [split; assumption|]. split; [assumption|]. split; [assumption|].
    intros eps. unfold pld_delta. cbn [new_pld pmf_remove pmf_add symmetric]. unfold Rmax. destruct (Rle_dec _ _) as [G|G].
    + destruct (divergence_exists _ _ _ _ _ _ _ eps (HC _ _ Ea)) as [d D1]. specialize (Ca eps d D1). destruct D1 as [_ (cuts & SC & <-)].
      eexists. split; [apply (extreme_add ok F q s cuts Hf Ho Hs SC) | right; exact Ca].
    + destruct (XR eps) as (E0 & HE & B). exists E0. split; [assumption | left; exact B].
Qed.
