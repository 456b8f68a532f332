(** The epsilon reported by a constructed distribution is at most one interval above the least
    one. *)
From Verif Require Import Base XReal Exn PyDict TypesAdjacency ModelPmf ModelPld ModelMake ModelMech SpecDP SpecPmf SpecPld SpecMech SpecClasses SpecMake SpecConstruct
  ProofDP ProofDict ProofPmf ProofPld ProofMake ProofClasses ProofMechTop ProofPldApi ProofDotsMech ProofConstruct ProofTight ProofTightMech ProofTightBuckets ProofSearchEx.
Local Arguments Rltb : simpl never.
Local Arguments Rleb : simpl never.
Local Arguments Reqb : simpl never.

Lemma inf_below D e : wf_pld D -> infinity_mass (pmf_remove D) <= pld_delta D (Fin e) /\ infinity_mass (pmf_add D) <= pld_delta D (Fin e).
Proof.
  intros (W1 & W2 & HS). assert (K : forall p, wf p -> infinity_mass p <= pmf_delta p (Fin e)).
  { intros p W. rewrite pmf_delta_psum by assumption. unfold ptest.
    assert (0 <= psum p (hgain (discretization p) e)) by (apply psum_nonneg; [assumption | intros; apply hgain_nonneg]). lra. }
  pose proof (K _ W1). pose proof (K _ W2). unfold pld_delta. destruct (symmetric D) eqn:S.
  - rewrite (HS eq_refl) in *. split; assumption.
  - split; [eapply Rle_trans; [exact H | apply Rmax_l] | eapply Rle_trans; [exact H0 | apply Rmax_r]].
Qed.
Lemma worst_below ok F q s eps e d d' : (forall E, noisy_query ok F q s E -> valid E) -> eps <= e ->
  (forall E, noisy_query ok F q s E -> dp_both E eps d) -> worst_delta ok F q s e d' -> d' <= d.
Proof.
  intros HV He B (_ & E & HE & H). pose proof (dp_weaken E eps e d (HV E HE) He (B E HE)) as [B1 B2]. apply dp_iff_hockey in B1, B2. destruct H as [<-|<-]; assumption.
Qed.
Lemma epsilon_near ok F q s eps disc delta D e1 : sound_pld D -> (forall E, noisy_query ok F q s E -> pld_bounds D E) ->
  0 <= eps -> eps <= e1 <= eps + disc -> pld_delta D (Fin e1) < delta ->
  exists e, pld_epsilon D delta = Ok (Fin e) /\ 0 <= e <= eps + disc /\ forall E, noisy_query ok F q s E -> dp_both E e delta.
Proof.
  intros HS HB H0 H1 HD. assert (WF : wf_pld D) by (destruct HS as (Sr & Sa & Sy); split; [apply Sr | split; [apply Sa | exact Sy]]).
  destruct (inf_below D e1 WF) as [I1 I2]. pose proof WF as (W1 & W2 & WS).
  destruct (pld_epsilon_spec D delta W1 W2 WS) as [[_ [K|K]]|(_ & _ & e & E & E0 & _ & Sm)]; [lra | lra |]. exists e. split; [exact E|]. split.
  - split; [exact E0|]. destruct (Rle_dec e (eps + disc)) as [L|L]; [exact L|]. exfalso.
    specialize (Sm ltac:(left; lra) ltac:(left; lra) e1 ltac:(lra)). lra.
  - intros E1 HE. apply (pld_epsilon_sound D E1 delta e HS (HB E1 HE) E).
Qed.
Lemma grid_above disc eps : 0 < disc -> exists z, eps <= IZR z * disc <= eps + disc.
Proof.
  intros Hd. exists (Rfloor (eps / disc) + 1)%Z. pose proof (floor_grid disc eps Hd). rewrite plus_IZR. lra.
Qed.

(** both constructions *)
Lemma epsilon_dots r ok F q s eps disc d delta D : 0 < disc -> sound_pld D -> (forall E, noisy_query ok F q s E -> pld_bounds D E) ->
  (forall z, exists d, worst_delta ok F q s (IZR z * disc) d /\ pld_delta D (Fin (IZR z * disc)) <= d + r) ->
  0 <= eps -> (forall E, noisy_query ok F q s E -> dp_both E eps d) -> d + r < delta ->
  exists e, pld_epsilon D delta = Ok (Fin e) /\ 0 <= e <= eps + disc /\ forall E, noisy_query ok F q s E -> dp_both E e delta.
Proof.
  intros Hd HS HB HZ H0 B HD. destruct (grid_above disc eps Hd) as [z Hz]. destruct (HZ z) as (d' & W & L).
  pose proof (worst_below ok F q s eps _ d d' (fun E HE => proj1 (HB E HE)) (proj1 Hz) B W). apply (epsilon_near ok F q s eps disc delta D (IZR z * disc)); try assumption. lra.
Qed.
Lemma epsilon_buckets r ok F q s eps disc d delta D : 0 < disc -> sound_pld D -> (forall E, noisy_query ok F q s E -> pld_bounds D E) ->
  (forall eps, exists d d', worst_delta ok F q s eps d /\ worst_delta ok F q s (eps - disc) d' /\ d <= pld_delta D (Fin eps) <= d' + r /\ d' <= d + (exp disc - 1)) ->
  0 <= eps -> (forall E, noisy_query ok F q s E -> dp_both E eps d) -> d + r < delta ->
  exists e, pld_epsilon D delta = Ok (Fin e) /\ 0 <= e <= eps + disc /\ forall E, noisy_query ok F q s E -> dp_both E e delta.
Proof.
  intros Hd HS HB HZ H0 B HD. destruct (HZ (eps + disc)) as (d1 & d' & _ & W & L & _). replace (eps + disc - disc) with eps in W by ring.
  pose proof (worst_below ok F q s eps eps d d' (fun E HE => proj1 (HB E HE)) (Rle_refl _) B W). apply (epsilon_near ok F q s eps disc delta D (eps + disc)); try assumption; lra.
Qed.

(** the four mechanisms *)
Lemma laplace_eps fuel b s dots disc q D eps d delta : 0 < disc -> grid_clear disc q ->
  from_laplace_mechanism fuel b s true disc q dots = Ok D -> 0 <= eps ->
  (forall E, noisy_query any_value (laplace_law b) q s E -> dp_both E eps d) -> d < delta ->
  exists e, pld_epsilon D delta = Ok (Fin e) /\ 0 <= e <= eps + disc /\
    forall E, noisy_query any_value (laplace_law b) q s E -> dp_both E e delta.
Proof.
  intros Hd HG H H0 B HD. assert (HM : 0 < b /\ 0 < s).
  { pose proof H as H'. unfold from_laplace_mechanism, subsampled_pld in H'. destruct (LaplacePrivacyLoss b s q REMOVE) as [m|] eqn:E; cbn [bind] in H'; [|discriminate].
    apply laplace_ok in E. tauto. }
  destruct (constructed_sound fuel dots disc q D _ _ _ Hd HG (by_laplace fuel true dots disc q (Ok D) b s (proj1 HM) (proj2 HM) H)) as [HS HB].
  destruct dots.
  - apply (epsilon_dots 0 _ _ q s eps disc d delta D Hd HS HB); try assumption; [|lra].
    intros z. exists (pld_delta D (Fin (IZR z * disc))). split; [apply (laplace_tight fuel b s disc q D Hd HG H) | lra].
  - apply (epsilon_buckets 0 _ _ q s eps disc d delta D Hd HS HB); try assumption; [|lra].
    intros e. destruct (laplace_near fuel b s disc q D Hd HG H e) as (x & y & X & Y & Z & T). exists x, y. split; [exact X|]. split; [exact Y | lra].
Qed.
Lemma dlaplace_eps fuel a s F dots disc q D eps d delta : integer_noise (dlaplace_weights a) F -> 0 < disc -> grid_clear disc q ->
  from_discrete_laplace_mechanism fuel a s true disc q dots = Ok D -> 0 <= eps ->
  (forall E, noisy_query integer_value F q (IZR s) E -> dp_both E eps d) -> d < delta ->
  exists e, pld_epsilon D delta = Ok (Fin e) /\ 0 <= e <= eps + disc /\
    forall E, noisy_query integer_value F q (IZR s) E -> dp_both E e delta.
Proof.
  intros HF Hd HG H H0 B HD. assert (HM : 0 < a /\ (0 < s)%Z).
  { pose proof H as H'. unfold from_discrete_laplace_mechanism, subsampled_pld in H'. destruct (DiscreteLaplacePrivacyLoss a s q REMOVE) as [m|] eqn:E; cbn [bind] in H'; [|discriminate].
    apply dlaplace_ok in E. tauto. }
  destruct (constructed_sound fuel dots disc q D _ _ _ Hd HG (by_discrete_laplace fuel true dots disc q (Ok D) a s F HF (proj1 HM) (proj2 HM) H)) as [HS HB].
  destruct dots.
  - apply (epsilon_dots 0 _ _ q (IZR s) eps disc d delta D Hd HS HB); try assumption; [|lra].
    intros z. exists (pld_delta D (Fin (IZR z * disc))). split; [apply (dlaplace_tight fuel a s F disc q D HF Hd HG H) | lra].
  - apply (epsilon_buckets 0 _ _ q (IZR s) eps disc d delta D Hd HS HB); try assumption; [|lra].
    intros e. destruct (dlaplace_near fuel a s F disc q D HF Hd HG H e) as (x & y & X & Y & Z & T). exists x, y. split; [exact X|]. split; [exact Y | lra].
Qed.
Lemma dgauss_eps fuel sigma s bound F dots disc q D eps d delta : integer_noise (dgaussian_weights sigma (default_bound sigma bound)) F -> 0 < disc -> grid_clear disc q ->
  from_discrete_gaussian_mechanism fuel sigma s bound true disc q dots = Ok D -> 0 <= eps ->
  (forall E, noisy_query integer_value F q (IZR s) E -> dp_both E eps d) -> d < delta ->
  exists e, pld_epsilon D delta = Ok (Fin e) /\ 0 <= e <= eps + disc /\
    forall E, noisy_query integer_value F q (IZR s) E -> dp_both E e delta.
Proof.
  intros HF Hd HG H H0 B HD. assert (HM : 0 < sigma /\ (0 < s <= 2 * default_bound sigma bound)%Z).
  { pose proof H as H'. unfold from_discrete_gaussian_mechanism, subsampled_pld in H'.
    destruct (DiscreteGaussianPrivacyLoss sigma s (default_bound sigma bound) q REMOVE) as [m|] eqn:E; cbn [bind] in H'; [|discriminate].
    apply dgauss_ok in E. tauto. }
  destruct (constructed_sound fuel dots disc q D _ _ _ Hd HG (by_discrete_gaussian fuel true dots disc q (Ok D) sigma s bound F HF (proj1 HM) (proj2 HM) H)) as [HS HB].
  destruct dots.
  - apply (epsilon_dots 0 _ _ q (IZR s) eps disc d delta D Hd HS HB); try assumption; [|lra].
    intros z. exists (pld_delta D (Fin (IZR z * disc))). split; [apply (dgauss_tight fuel sigma s bound F disc q D HF Hd HG H) | lra].
  - apply (epsilon_buckets 0 _ _ q (IZR s) eps disc d delta D Hd HS HB); try assumption; [|lra].
    intros e. destruct (dgauss_near fuel sigma s bound F disc q D HF Hd HG H e) as (x & y & X & Y & Z & T). exists x, y. split; [exact X|]. split; [exact Y | lra].
Qed.
Lemma gaussian_eps Phi ppf fuel sigma s lb dots disc q D eps d delta : normal_cdf Phi -> quantile_of Phi ppf -> 0 < disc -> grid_clear disc q ->
  from_gaussian_mechanism Phi ppf fuel sigma s true disc lb q dots = Ok D -> 0 <= eps ->
  (forall E, noisy_query any_value (fun x => Phi (x / sigma)) q s E -> dp_both E eps d) -> d + exp lb < delta ->
  exists e, pld_epsilon D delta = Ok (Fin e) /\ 0 <= e <= eps + disc /\
    forall E, noisy_query any_value (fun x => Phi (x / sigma)) q s E -> dp_both E e delta.
Proof.
  intros HP HQ Hd HG H H0 B HD. assert (HM : 0 < sigma /\ 0 < s /\ lb <= 0).
  { pose proof H as H'. unfold from_gaussian_mechanism, subsampled_pld in H'.
    destruct (GaussianPrivacyLoss Phi ppf sigma s true lb q REMOVE) as [m|] eqn:E; cbn [bind] in H'; [|discriminate].
    apply gaussian_ok in E. tauto. }
  destruct HM as (M1 & M2 & M3).
  destruct (constructed_sound fuel dots disc q D _ _ _ Hd HG (by_gaussian fuel true dots disc q (Ok D) Phi ppf sigma s lb HP HQ M1 M2 M3 H)) as [HS HB].
  pose proof (exp_pos lb). destruct dots.
  - apply (epsilon_dots (exp lb) _ _ q s eps disc d delta D Hd HS HB); try assumption.
    intros z. destruct (proj1 (gaussian_tight Phi ppf fuel sigma s lb disc q D HP HQ Hd HG H) z) as (x & X & Y). exists x. split; [exact X | lra].
  - apply (epsilon_buckets (exp lb) _ _ q s eps disc d delta D Hd HS HB); try assumption.
    apply (gaussian_near Phi ppf fuel sigma s lb disc q D HP HQ Hd HG H).
Qed.
Lemma eps_example eps : exists d, forall E, noisy_query any_value (laplace_law 2) (1/2) 3 E -> dp_both E eps d.
Proof.
  destruct (tight_example true) as (G & (N & D & H) & _).
  destruct (constructed_sound N true 1 (1/2) D _ _ _ Rlt_0_1 G (by_laplace N true true 1 (1/2) (Ok D) 2 3 ltac:(lra) ltac:(lra) H)) as [HS HB].
  exists (pld_delta D (Fin eps)). intros E HE. apply (pld_delta_sound D E eps HS (HB E HE)).
Qed.
