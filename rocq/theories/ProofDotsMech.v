(** The connect-the-dots construction from an additive noise mechanism. *)
From Verif Require Import Base XReal Exn TypesAdjacency PyDict ModelPmf ModelPld ModelMake ModelMech SpecDP SpecPmf SpecPld SpecMech SpecClasses SpecConstruct
  ProofDP ProofDots ProofMakeEx ProofPeak ProofNoise ProofAdditive ProofClasses ProofMechTop.

Lemma deltas_at_in m disc eps : forall ds z d, deltas_at m disc eps = Ok ds -> In (z, d) (combine eps ds) ->
  get_delta_for_epsilon m (IZR z * disc) = Ok (Fin d).
Proof.
  induction eps as [|z0 eps IH]; intros ds z d; cbn [deltas_at]; [intros [= <-] []|].
  destruct (get_delta_for_epsilon m (IZR z0 * disc)) as [d0|] eqn:E0; cbn [bind]; [|discriminate].
  destruct (deltas_at m disc eps) as [ds0|] eqn:E1; cbn [bind]; [|discriminate].
  destruct d0 as [d0| | |]; try discriminate. intros [= <-]. cbn [combine]. intros [H|H].
  - injection H as <- <-. assumption.
  - apply (IH ds0 z d eq_refl H).
Qed.

Lemma dots_pmf_grid m disc p : 0 < disc -> dots_pmf m disc = Ok p ->
  exists eps ds, deltas_at m disc eps = Ok ds /\ connect_dots disc eps ds = Ok p.
Proof.
  intros Hd. unfold dots_pmf. destruct (connect_dots_bounds m) as [b|]; cbn [bind]; [|discriminate].
  destruct (is_discrete m), b as [u l|lo up]; try discriminate.
  - destruct (rounded_epsilons _ _ _ _ _) as [eps|]; cbn [bind]; [|discriminate].
    destruct (deltas_at m disc eps) as [ds|] eqn:E; cbn [bind]; [|discriminate]. eauto.
  - destruct (round_xr true _) as [u'|]; cbn [bind]; [|discriminate]. destruct (round_xr false _) as [l'|]; cbn [bind]; [|discriminate].
    destruct (deltas_at m disc _) as [ds|] eqn:E; cbn [bind]; [|discriminate]. rewrite fixed_gap_eq by assumption. eauto.
Qed.

Lemma divergence_exists m ok F f s q adj eps : additive_noise m ok F f s q adj ->
  exists d, divergence_is (upper_law adj F q s) (lower_law adj F q s) eps d.
Proof.
  intros HA. destruct (near_dec q adj eps) as [N|N].
  - destruct (mech_delta_near _ _ _ _ _ _ _ HA eps N) as (? & d & _ & D & _). exists d. assumption.
  - destruct (mech_delta _ _ _ _ _ _ _ HA eps N) as (d & _ & D). exists d. assumption.
Qed.
Lemma additive_laws m ok F f s q adj : additive_noise m ok F f s q adj ->
  is_cdf (upper_law adj F q s) /\ is_cdf (lower_law adj F q s).
Proof.
  intros HA. destruct (additive_instance _ _ _ _ _ _ _ HA) as [Hq Hs Ho Hf (pk & cdf & loss0 & inv0 & pt & L & disc & tail & bounds & E & HF & HL & HR & HD)].
  apply (law_cdf _ _ _ _ _ HF q Hq adj).
Qed.

Lemma dots_above m ok F f s q adj disc p : 0 < disc -> additive_noise m ok F f s q adj ->
  (forall z, ~ near_limit adj q (IZR z * disc)) -> dots_pmf m disc = Ok p ->
  sound_pmf p /\ curve_above p (upper_law adj F q s) (lower_law adj F q s).
Proof.
  intros Hd HA HN HP. destruct (dots_pmf_grid _ _ _ Hd HP) as (eps & ds & HD & HC).
  destruct (dots_ok disc Hd eps ds p HC) as (E1 & E2 & Hl & G & R01 & W & PE & DI & IM & _).
  split.
  - split; [assumption|]. split; [|assumption]. rewrite IM. destruct ds as [|d ds']; [cbn; lra|].
    apply R01. apply List.exists_last in Hl. clear -ds'. revert d. induction ds' as [|d' ds' IH]; intros d; [left; reflexivity|].
    cbn [last]. right. apply IH.
  - intros e delta [_ (cuts & SC & <-)]. destruct (additive_laws _ _ _ _ _ _ _ HA) as [U L].
    set (E := observe (upper_law adj F q s) (lower_law adj F q s) cuts).
    apply (dp_iff_hockey E). apply (dots_dominates_exper disc eps ds p E Hd HC (observe_valid _ _ _ U L SC)).
    intros z d Hz. apply (deltas_at_in _ _ _ _ _ _ HD) in Hz.
    destruct (mech_delta _ _ _ _ _ _ _ HA (IZR z * disc) (HN z)) as (d' & E' & [D' _]). rewrite E' in Hz. injection Hz as <-.
    apply dp_iff_hockey. apply D', SC.
Qed.

(** one pmf for each direction (or one for both) bounds every noisy query *)
Section Pair.
  Context (cls : adjacency -> res monotone) (ok : R -> Prop) (F f : R -> R) (s q : R) (build : monotone -> res pmf).
  Hypothesis HC : forall adj m, cls adj = Ok m -> additive_noise m ok F f s q adj.
  Hypothesis HB : forall adj m p, cls adj = Ok m -> build m = Ok p ->
    sound_pmf p /\ curve_above p (upper_law adj F q s) (lower_law adj F q s).

  Lemma subsampled_sound D : subsampled_pld (fun adj => let? m := cls adj in build m) q = Ok D ->
    sound_pld D /\ forall E, noisy_query ok F q s E -> pld_bounds D E.
  Proof.
    unfold subsampled_pld. destruct (cls REMOVE) as [mr|] eqn:Er; cbn [bind]; [|discriminate].
    destruct (build mr) as [r|] eqn:Br; cbn [bind]; [|discriminate].
    destruct (HB _ _ _ Er Br) as [Sr Ar]. pose proof (HC _ _ Er) as Nr. cbn [upper_law lower_law] in Ar.
    destruct (additive_instance _ _ _ _ _ _ _ Nr) as [Hq Hs Ho Hf (pk & cdf & loss0 & inv0 & pt & L & disc & tail & bounds & E & HF & _)].
    pose proof (fun eps => delta_at_peak _ _ _ _ _ HF q Hq REMOVE eps) as DR.
    pose proof (fun eps => delta_at_peak _ _ _ _ _ HF q Hq ADD eps) as DA. cbn [upper_law lower_law] in DR, DA.
    assert (K : forall E (a : pmf), noisy_query ok F q s E ->
      (forall eps, delta_at F s q ADD eps (peak ADD q s pk eps) <= pmf_delta a (Fin eps)) ->
      valid E /\ profile_bounds (fun eps => pmf_delta r (Fin eps)) E /\ profile_bounds (fun eps => pmf_delta a (Fin eps)) (swap E)).
    { intros E0 a HE Ha. assert (B : forall eps, valid E0 /\ dp E0 eps (pmf_delta r (Fin eps)) /\ dp (swap E0) eps (pmf_delta a (Fin eps))).
      { intros eps. destruct (noisy_query_bounded ok F Hf q s Hq (Rlt_le _ _ Hs) Ho E0 eps _ _ HE (DR eps) (DA eps)) as (V & D1 & D2).
        split; [assumption|]. split; intros S; [specialize (D1 S); specialize (Ar eps _ (DR eps)) | specialize (D2 S); specialize (Ha eps)]; lra. }
      split; [apply (B 0)|]. split; intros eps; apply B. }
    destruct (Reqb_spec q 1) as [Q|Q].
    - intros [= <-]. split.
      + split; [assumption|]. split; [assumption | reflexivity].
      + intros E0 HE. apply (K E0 r HE). intros eps. specialize (Ar eps _ (DR eps)). subst q.
        eapply Rle_trans; [|exact Ar]. right. rewrite !peak_1, delta_at_add, delta_at_remove.
        replace (xadd (xadd (pk eps) (Fin s)) (Fin (- s))) with (pk eps); [ring|].
        destruct (pk eps) as [a| | |]; cbn; try reflexivity. f_equal. ring.
    - destruct (cls ADD) as [ma|] eqn:Ea; cbn [bind]; [|discriminate]. destruct (build ma) as [a|] eqn:Ba; cbn [bind]; [|discriminate].
      intros [= <-]. destruct (HB _ _ _ Ea Ba) as [Sa Aa]. split.
      + split; [assumption|]. split; [assumption | discriminate].
      + intros E0 HE. apply (K E0 a HE). intros eps. apply (Aa eps _ (DA eps)).
  Qed.
End Pair.
