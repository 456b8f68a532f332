(** The constructors on a discretization grid that may meet the limit of the privacy loss. *)
From Coq Require Import FunctionalExtensionality.
From Verif Require Import Base XReal Exn PyDict TypesAdjacency ModelPmf ModelPld ModelMake ModelMech SpecDP SpecPmf SpecPld SpecMech SpecClasses SpecConstruct SpecAccErr
  ProofDP ProofPmf ProofPeak ProofNoise ProofShape ProofShapeGauss ProofShapeInt ProofAdditive ProofClasses ProofMechTop ProofDotsMech ProofConstruct ProofNoiseNear.
Local Arguments Rltb : simpl never.
Local Arguments Rleb : simpl never.
Local Arguments Reqb : simpl never.

Lemma exact_within p U L err : 0 <= err -> sound_pmf p -> curve_above p U L ->
  sound_pmf p /\ forall eps delta, divergence_is U L eps delta -> delta <= pmf_delta p (Fin eps) + err.
Proof. intros He S C. split; [exact S|]. intros eps delta D. specialize (C eps delta D). lra. Qed.

Lemma constructed_within fuel dots disc q D ok F s : 0 < disc -> from_mechanism fuel true dots disc q (Ok D) ok F s ->
  dots = true \/ ok = integer_value ->
  sound_pld D /\ forall E, noisy_query ok F q s E -> pld_within (grid_error q) D E.
Proof.
  intros Hd HM HO. pose proof (grid_error_nonneg q) as He.
  assert (NI : any_value <> integer_value).
  { intros E. assert (any_value (1/2)) as A by exact I. rewrite E in A. destruct A as [z Hz].
    assert (0 < z)%Z by (apply lt_IZR; lra). assert (z < 1)%Z by (apply lt_IZR; lra). lia. }
  remember (Ok D) as r eqn:Er. revert Er. destruct HM as [b s' _ _ <- | Phi ppf sigma s' lb HP HQ _ _ _ <- | a s' F' HF Ha Hs <- | sigma s' bound F' HF Hb Hs <-]; intros HD.
  - destruct HO as [-> | HO]; [|destruct (NI HO)].
    apply (subsampled_within (LaplacePrivacyLoss b s' q) _ _ _ s' q (grid_error q) (fun m => monotone_pmf fuel m true disc true) (fun adj m Hm => laplace_noise m b s' q adj Hm)); [|exact HD].
    intros adj m p Hm. unfold monotone_pmf. cbn [andb]. intros Hp. apply (dots_nearly m _ _ _ s' q adj (laplace_noise m b s' q adj Hm) disc p Hd Hp).
  - destruct HO as [-> | HO]; [|destruct (NI HO)].
    apply (subsampled_within (GaussianPrivacyLoss Phi ppf sigma s' true lb q) _ _ _ s' q (grid_error q) (fun m => monotone_pmf fuel m true disc true) (fun adj m Hm => gaussian_noise m Phi ppf sigma s' true lb q adj HP Hm)); [|exact HD].
    intros adj m p Hm. unfold monotone_pmf. cbn [andb]. intros Hp. apply (dots_nearly m _ _ _ s' q adj (gaussian_noise m Phi ppf sigma s' true lb q adj HP Hm) disc p Hd Hp).
  - apply (subsampled_within (DiscreteLaplacePrivacyLoss a s' q) _ _ _ (IZR s') q (grid_error q) (fun m => monotone_pmf fuel m true disc dots) (fun adj m Hm => discrete_laplace_noise m a s' q adj F' HF Hm)); [|exact HD].
    intros adj m p Hm. unfold monotone_pmf. destruct dots; cbn [andb]; intros Hp.
    + apply (dots_nearly m _ _ _ (IZR s') q adj (discrete_laplace_noise m a s' q adj F' HF Hm) disc p Hd Hp).
    + assert (F' = dlaplace_law a) as -> by (apply functional_extensionality, (integer_noise_unique (dlaplace_weights a)); [exact HF | apply dlaplace_noise, Ha]).
      destruct (dlaplace_buckets a s' q adj disc true fuel m p Hd ltac:(discriminate) Hm Hp) as (W & I1 & P & C).
      apply exact_within; [exact He | split; [exact W | split; assumption] | exact C].
  - set (T := default_bound sigma bound) in *.
    apply (subsampled_within (DiscreteGaussianPrivacyLoss sigma s' T q) _ _ _ (IZR s') q (grid_error q) (fun m => monotone_pmf fuel m true disc dots) (fun adj m Hm => discrete_gaussian_noise m sigma s' T q adj F' HF Hm)); [|exact HD].
    intros adj m p Hm. unfold monotone_pmf. destruct dots; cbn [andb]; intros Hp.
    + apply (dots_nearly m _ _ _ (IZR s') q adj (discrete_gaussian_noise m sigma s' T q adj F' HF Hm) disc p Hd Hp).
    + assert (F' = dgaussian_law sigma T) as -> by (apply functional_extensionality, (integer_noise_unique (dgaussian_weights sigma T)); [exact HF | apply dgaussian_noise; (assumption || lia)]).
      destruct (dgauss_buckets sigma s' T q adj disc true fuel m p Hd ltac:(discriminate) Hm Hp) as (W & I1 & P & C).
      apply exact_within; [exact He | split; [exact W | split; assumption] | exact C].
Qed.

(** privacy buckets for integer noise need no condition on the grid at all *)
Lemma integer_buckets_sound fuel disc q D F s : 0 < disc -> from_mechanism fuel true false disc q (Ok D) integer_value F s ->
  sound_pld D /\ forall E, noisy_query integer_value F q s E -> pld_bounds D E.
Proof.
  intros Hd HM. remember integer_value as ok eqn:Eo. remember (Ok D) as r eqn:Er.
  assert (NI : any_value <> integer_value).
  { intros E. assert (any_value (1/2)) as A by exact I. rewrite E in A. destruct A as [z Hz].
    assert (0 < z)%Z by (apply lt_IZR; lra). assert (z < 1)%Z by (apply lt_IZR; lra). lia. }
  revert Er Eo. destruct HM as [b s' _ _ <- | Phi ppf sigma s' lb HP HQ _ _ _ <- | a s' F' HF Ha Hs <- | sigma s' bound F' HF Hb Hs <-]; intros HD Eo; try (destruct (NI Eo)).
  - revert HD. apply (subsampled_sound (DiscreteLaplacePrivacyLoss a s' q) _ _ _ (IZR s') q (fun m => monotone_pmf fuel m true disc false) (fun adj m Hm => discrete_laplace_noise m a s' q adj F' HF Hm)).
    intros adj m p Hm. unfold monotone_pmf. cbn [andb]. intros Hp.
    assert (F' = dlaplace_law a) as -> by (apply functional_extensionality, (integer_noise_unique (dlaplace_weights a)); [exact HF | apply dlaplace_noise, Ha]).
    destruct (dlaplace_buckets a s' q adj disc true fuel m p Hd ltac:(discriminate) Hm Hp) as (W & I1 & P & C). split; [split; [exact W | split; assumption] | exact C].
  - set (T := default_bound sigma bound) in *. revert HD.
    apply (subsampled_sound (DiscreteGaussianPrivacyLoss sigma s' T q) _ _ _ (IZR s') q (fun m => monotone_pmf fuel m true disc false) (fun adj m Hm => discrete_gaussian_noise m sigma s' T q adj F' HF Hm)).
    intros adj m p Hm. unfold monotone_pmf. cbn [andb]. intros Hp.
    assert (F' = dgaussian_law sigma T) as -> by (apply functional_extensionality, (integer_noise_unique (dgaussian_weights sigma T)); [exact HF | apply dgaussian_noise; (assumption || lia)]).
    destruct (dgauss_buckets sigma s' T q adj disc true fuel m p Hd ltac:(discriminate) Hm Hp) as (W & I1 & P & C). split; [split; [exact W | split; assumption] | exact C].
Qed.
