(** create_from_cdf. *)
From Verif Require Import Base XReal Exn PyDict TypesRelation ModelCommon ModelPmf ModelPld ModelMake
  SpecDP SpecPmf SpecPld SpecMake ProofDP ProofDict ProofPmf ProofCompose ProofCompose2 ProofPld
  ProofMake ProofTwo.

Section Cdf.
  Variables (l : list (R * R)) (disc tail : R).
  Hypothesis Hd : 0 < disc.
  Hypothesis Hl : forall lp, In lp l -> 0 <= snd lp.
  Let F := loss_cdf l.
  Variable c : Z.
  Definition rnd (x : R) : Z := (Rceil (x / disc) + c - 1)%Z.
  Definition within (a b : R) (g : Z -> R) : R :=
    rsum (fun lp => if (Rltb a (fst lp) && Rleb (fst lp) b)%bool then snd lp * g (rnd (fst lp)) else 0) l.

  Lemma F_diff a b : a <= b ->
    F b - F a = rsum (fun lp => if (Rltb a (fst lp) && Rleb (fst lp) b)%bool then snd lp else 0) l.
  Proof.
    intros H. unfold F, loss_cdf. rewrite !rsum_filter, <- rsum_minus. apply rsum_ext. intros lp _.
    destruct (Rleb_spec (fst lp) b), (Rleb_spec (fst lp) a), (Rltb_spec a (fst lp)); cbn; lra.
  Qed.

  Lemma F_one m g : within (IZR m * disc) (IZR (m + 1) * disc) g =
    (F (IZR (m + 1) * disc) - F (IZR m * disc)) * g (m + c)%Z.
  Proof.
    rewrite F_diff by (rewrite plus_IZR; lra). rewrite <- rsum_scal_r. apply rsum_ext. intros lp _.
    destruct (Rltb_spec (IZR m * disc) (fst lp)) as [A|]; cbn [andb]; [|lra].
    destruct (Rleb_spec (fst lp) (IZR (m + 1) * disc)) as [B|]; [|lra].
    replace (rnd (fst lp)) with (m + c)%Z; [reflexivity|]. unfold rnd.
    rewrite (Rceil_unique (fst lp / disc) (m + 1)); [lia|]. rewrite plus_IZR in *.
    split.
    - apply (Rmult_lt_reg_r disc); [assumption|]. unfold Rdiv. rewrite Rmult_assoc, Rinv_l by lra. lra.
    - apply (Rmult_le_reg_r disc); [assumption|]. unfold Rdiv. rewrite Rmult_assoc, Rinv_l by lra. lra.
  Qed.
  Lemma within_join a b b' g : a <= b -> b <= b' -> within a b g + within b b' g = within a b' g.
  Proof.
    intros H1 H2. unfold within. rewrite <- rsum_plus. apply rsum_ext. intros lp _.
    destruct (Rltb_spec a (fst lp)), (Rltb_spec b (fst lp)), (Rleb_spec (fst lp) b), (Rleb_spec (fst lp) b'); cbn; lra.
  Qed.
  Lemma within_empty a g : within a a g = 0.
  Proof.
    apply rsum_zero. intros lp _. destruct (Rltb_spec a (fst lp)), (Rleb_spec (fst lp) a); cbn; lra.
  Qed.

  Lemma up_sum fuel : forall m d d', cdf_up fuel F disc tail (m + c) (IZR m * disc) d = Ok d' ->
    NoDup (keys d) -> (forall k, In k (keys d) -> (k < m + c)%Z) ->
    exists M, (m <= M)%Z /\ 1 - tail / 2 <= F (IZR M * disc) /\ NoDup (keys d') /\
      (forall k, In k (keys d') -> In k (keys d) \/ (m + c <= k)%Z) /\
      forall g, dsum d' g = dsum d g + within (IZR m * disc) (IZR M * disc) g.
  Proof.
    induction fuel as [|fuel IH]; intros m d d'; cbn [cdf_up];
      destruct (Rltb_spec (F (IZR m * disc)) (1 - tail / 2)) as [B|B]; intros H ND Hk.
    - discriminate.
    - injection H as <-. exists m. split; [lia|]. split; [lra|]. split; [assumption|].
      split; [auto|]. intros g. rewrite within_empty. lra.
    - assert (E1 : IZR m * disc + disc = IZR (m + 1) * disc) by (rewrite plus_IZR; lra).
      assert (E2 : (m + c + 1 = m + 1 + c)%Z) by lia. rewrite E1, E2 in H.
      set (v := F (IZR (m + 1) * disc) - F (IZR m * disc)) in *.
      assert (Fr : ~ In (m + c)%Z (keys d)) by (intros Hin; specialize (Hk _ Hin); lia).
      destruct (IH _ _ _ H) as (M & LM & HM & ND' & HK & S).
      + apply NoDup_dset. assumption.
      + intros k Hin. apply keys_dset_In in Hin. destruct Hin as [Hin| ->]; [specialize (Hk _ Hin)|]; lia.
      + exists M. split; [lia|]. split; [assumption|]. split; [assumption|]. split.
        * intros k Hin. destruct (HK k Hin) as [Hin'|]; [|right; lia].
          apply keys_dset_In in Hin'. destruct Hin' as [| ->]; [left; assumption | right; lia].
        * intros g. rewrite S, dsum_dset, dget0_not by assumption. rewrite Rminus_0_r.
          rewrite <- (within_join (IZR m * disc) (IZR (m + 1) * disc) (IZR M * disc)).
          -- rewrite F_one. fold v. lra.
          -- rewrite plus_IZR. lra.
          -- apply IZR_le in LM. nra.
    - injection H as <-. exists m. split; [lia|]. split; [lra|]. split; [assumption|].
      split; [auto|]. intros g. rewrite within_empty. lra.
  Qed.

  Lemma down_sum fuel : forall m d d', cdf_down fuel F disc tail (m + c - 1) (IZR m * disc) d = Ok d' ->
    NoDup (keys d) -> (forall k, In k (keys d) -> (m + c - 1 < k)%Z) ->
    exists M, (M <= m)%Z /\ F (IZR M * disc) <= tail / 2 /\ NoDup (keys d') /\
      forall g, dsum d' g = dsum d g + within (IZR M * disc) (IZR m * disc) g.
  Proof.
    induction fuel as [|fuel IH]; intros m d d'; cbn [cdf_down];
      destruct (Rltb_spec (tail / 2) (F (IZR m * disc))) as [B|B]; intros H ND Hk.
    - discriminate.
    - injection H as <-. exists m. split; [lia|]. split; [lra|]. split; [assumption|].
      intros g. rewrite within_empty. lra.
    - assert (E1 : IZR m * disc - disc = IZR (m - 1) * disc) by (rewrite minus_IZR; lra).
      assert (E2 : (m + c - 1 - 1 = m - 1 + c - 1)%Z) by lia. rewrite E1, E2 in H.
      set (v := F (IZR m * disc) - F (IZR (m - 1) * disc)) in *.
      assert (Fr : ~ In (m + c - 1)%Z (keys d)) by (intros Hin; specialize (Hk _ Hin); lia).
      destruct (IH _ _ _ H) as (M & LM & HM & ND' & S).
      + apply NoDup_dset. assumption.
      + intros k Hin. apply keys_dset_In in Hin. destruct Hin as [Hin| ->]; [specialize (Hk _ Hin)|]; lia.
      + exists M. split; [lia|]. split; [assumption|]. split; [assumption|].
        intros g. rewrite S, dsum_dset, dget0_not by assumption. rewrite Rminus_0_r.
        rewrite <- (within_join (IZR M * disc) (IZR (m - 1) * disc) (IZR m * disc)).
        * pose proof (F_one (m - 1) g) as FO. replace (m - 1 + 1)%Z with m in FO by lia.
          fold v in FO. rewrite FO. replace (m - 1 + c)%Z with (m + c - 1)%Z by lia. lra.
        * apply IZR_le in LM. nra.
        * rewrite minus_IZR. lra.
    - injection H as <-. exists m. split; [lia|]. split; [lra|]. split; [assumption|].
      intros g. rewrite within_empty. lra.
  Qed.

  Lemma loops_sum fuel d1 d2 : cdf_up fuel F disc tail c 0 [] = Ok d1 ->
    cdf_down fuel F disc tail (c - 1) 0 d1 = Ok d2 ->
    exists L U, L <= U /\ F L <= tail / 2 /\ 1 - tail / 2 <= F U /\ NoDup (keys d2) /\ nonneg_dict d2 /\
      forall g, dsum d2 g = within L U g.
  Proof.
    intros H1 H2.
    destruct (up_sum fuel 0 [] d1) as (M & LM & HM & ND & HK & S).
    { replace (IZR 0 * disc) with 0 by lra. exact H1. } { constructor. } { intros k []. }
    destruct (down_sum fuel 0 d1 d2) as (M' & LM' & HM' & ND' & S').
    { replace (IZR 0 * disc) with 0 by lra. exact H2. } { assumption. }
    { intros k Hin. destruct (HK k Hin) as [[]|]. lia. }
    exists (IZR M' * disc), (IZR M * disc).
    assert (W : forall g, dsum d2 g = within (IZR M' * disc) (IZR M * disc) g).
    { intros g. rewrite S', S. rewrite <- (within_join (IZR M' * disc) (IZR 0 * disc) (IZR M * disc)).
      - cbn [dsum rsum]. unfold dsum. cbn [rsum]. lra.
      - apply IZR_le in LM'. nra.
      - apply IZR_le in LM. nra. }
    split. { apply IZR_le in LM, LM'. nra. }
    repeat (split; [assumption|]). split; [|assumption].
    intros k. rewrite <- dsum_ind, W by assumption. apply rsum_nonneg. intros lp Hin.
    destruct (_ && _)%bool; [|lra]. apply Rmult_le_pos; [auto|]. unfold ind. destruct (_ =? _)%Z; lra.
  Qed.

  (** outside the scanned range *)
  Lemma outside L U : L <= U -> F L <= tail / 2 -> 1 - tail / 2 <= F U ->
    rsum snd l <= within L U (fun _ => 1) + tail + (rsum snd l - 1) /\
    rsum snd l - within L U (fun _ => 1) <= F L + (rsum snd l - F U).
  Proof.
    intros H1 H2 H3.
    assert (E : within L U (fun _ => 1) = F U - F L).
    { rewrite F_diff by assumption. apply rsum_ext. intros lp _. destruct (_ && _)%bool; lra. }
    rewrite E. split; lra.
  Qed.

  Lemma within_gain_ge L U eps : (forall x, eps - IZR (rnd x) * disc <= eps - x) ->
    loss_curve l eps <= within L U (hgain disc eps) + (rsum snd l - within L U (fun _ => 1)).
  Proof.
    intros H. unfold loss_curve, within.
    rewrite <- rsum_minus, <- rsum_plus. apply rsum_le. intros lp Hin. specialize (Hl lp Hin).
    assert (G := gain_ge disc eps (rnd (fst lp)) eps (fst lp) (H (fst lp))).
    assert (G1 : pos (1 - exp (eps - fst lp)) <= 1).
    { apply pos_le_bound; [lra|]. pose proof (exp_pos (eps - fst lp)). lra. }
    change (Rmax 0 (1 - exp (eps - fst lp))) with (pos (1 - exp (eps - fst lp))).
    destruct (_ && _)%bool; nra.
  Qed.
  Lemma within_gain_le L U eps eps' : (forall x, eps' - x <= eps - IZR (rnd x) * disc) ->
    within L U (hgain disc eps) <= loss_curve l eps'.
  Proof.
    intros H. unfold loss_curve, within. apply rsum_le. intros lp Hin. specialize (Hl lp Hin).
    assert (G := gain_le disc eps (rnd (fst lp)) eps' (fst lp) (H (fst lp))).
    change (Rmax 0 (1 - exp (eps' - fst lp))) with (pos (1 - exp (eps' - fst lp))).
    pose proof (pos_nonneg (1 - exp (eps' - fst lp))). destruct (_ && _)%bool; nra.
  Qed.
  Lemma within_gain_ge2 L U eps eps' : (forall x, eps - IZR (rnd x) * disc <= eps' - x) ->
    loss_curve l eps' <= within L U (hgain disc eps) + (rsum snd l - within L U (fun _ => 1)).
  Proof.
    intros H. unfold loss_curve, within.
    rewrite <- rsum_minus, <- rsum_plus. apply rsum_le. intros lp Hin. specialize (Hl lp Hin).
    assert (G := gain_ge disc eps (rnd (fst lp)) eps' (fst lp) (H (fst lp))).
    assert (G1 : pos (1 - exp (eps' - fst lp)) <= 1).
    { apply pos_le_bound; [lra|]. pose proof (exp_pos (eps' - fst lp)). lra. }
    change (Rmax 0 (1 - exp (eps' - fst lp))) with (pos (1 - exp (eps' - fst lp))).
    destruct (_ && _)%bool; nra.
  Qed.

  Lemma rnd_bounds x : x + (IZR c - 1) * disc <= IZR (rnd x) * disc < x + IZR c * disc.
  Proof.
    unfold rnd. rewrite minus_IZR, plus_IZR. pose proof (Rceil_spec (x / disc)) as B.
    assert (E : x / disc * disc = x) by (field; lra). split; nra.
  Qed.
End Cdf.

Lemma cdf_inv fuel F pess disc tail D : create_from_cdf fuel F pess disc tail = Ok D ->
  exists d1 d2, cdf_up fuel F disc tail (if pess then 1 else 0) 0 [] = Ok d1 /\
    cdf_down fuel F disc tail ((if pess then 1 else 0) - 1) 0 d1 = Ok d2 /\
    create_pmf d2 disc (if pess then tail else 0) pess = Ok (pmf_remove D) /\
    pmf_add D = pmf_remove D /\ symmetric D = true.
Proof.
  unfold create_from_cdf, create_from_rounded_probability. intros H.
  apply bind_Ok in H. destruct H as (d1 & H1 & H).
  apply bind_Ok in H. destruct H as (d2 & H2 & H).
  apply bind_Ok in H. destruct H as (p & H3 & H). injection H as <-.
  exists d1, d2. split; [assumption|]. split; [destruct pess; exact H2|].
  cbn. auto.
Qed.

(** [inf]: probability of an infinite loss *)
Lemma cdf_pessimistic fuel l inf disc tail D : 0 < disc -> 0 <= tail <= 1 ->
  (forall lp, In lp l -> 0 <= snd lp) -> rsum snd l + inf = 1 ->
  create_from_cdf fuel (loss_cdf l) true disc tail = Ok D ->
  sound_pld D /\ forall eps,
    inf + loss_curve l eps <= pld_delta D (Fin eps) <= tail + loss_curve l (eps - disc).
Proof.
  intros Hd Ht Hl Hs H. destruct (cdf_inv _ _ _ _ _ _ H) as (d1 & d2 & H1 & H2 & HC & EA & SY).
  destruct (loops_sum l disc tail Hd Hl 1 fuel d1 d2 H1 H2) as (L & U & LU & FL & FU & ND & NN & S).
  destruct (create_pmf_ok _ _ _ _ _ Hd (proj1 Ht) ND NN HC) as (W & PS & IM & DI & PE).
  split.
  - unfold sound_pld, sound_pmf. rewrite EA, IM. repeat split; auto; try (apply W); lra.
  - intros eps. unfold pld_delta. rewrite SY, pmf_delta_psum by assumption. unfold ptest.
    rewrite PS, S, DI, IM. destruct (outside l disc tail 1 L U LU FL FU) as [O1 _].
    pose proof (rnd_bounds disc Hd 1) as RB. split.
    + pose proof (within_gain_ge l disc Hl 1 L U eps) as G.
      assert (G0 : forall x, eps - IZR (rnd disc 1 x) * disc <= eps - x) by (intros x; specialize (RB x); lra).
      specialize (G G0). lra.
    + pose proof (within_gain_le l disc Hl 1 L U eps (eps - disc)) as G.
      assert (G0 : forall x, eps - disc - x <= eps - IZR (rnd disc 1 x) * disc) by (intros x; specialize (RB x); lra).
      specialize (G G0). lra.
Qed.

Lemma cdf_optimistic fuel l inf disc tail D : 0 < disc -> 0 <= tail ->
  (forall lp, In lp l -> 0 <= snd lp) -> rsum snd l + inf = 1 -> 0 <= inf ->
  create_from_cdf fuel (loss_cdf l) false disc tail = Ok D ->
  wf_pld D /\ forall eps,
    inf + loss_curve l (eps + disc) - tail <= pld_delta D (Fin eps) <= loss_curve l eps.
Proof.
  intros Hd Ht Hl Hs Hinf H. destruct (cdf_inv _ _ _ _ _ _ H) as (d1 & d2 & H1 & H2 & HC & EA & SY).
  destruct (loops_sum l disc tail Hd Hl 0 fuel d1 d2 H1 H2) as (L & U & LU & FL & FU & ND & NN & S).
  destruct (create_pmf_ok _ _ _ _ _ Hd (Rle_refl 0) ND NN HC) as (W & PS & IM & DI & PE).
  split.
  - unfold wf_pld. rewrite EA. auto.
  - intros eps. unfold pld_delta. rewrite SY, pmf_delta_psum by assumption. unfold ptest.
    rewrite PS, S, DI, IM. destruct (outside l disc tail 0 L U LU FL FU) as [O1 _].
    pose proof (rnd_bounds disc Hd 0) as RB. split.
    + pose proof (within_gain_ge2 l disc Hl 0 L U eps (eps + disc)) as G.
      assert (G0 : forall x, eps - IZR (rnd disc 0 x) * disc <= eps + disc - x) by (intros x; specialize (RB x); lra).
      specialize (G G0). lra.
    + pose proof (within_gain_le l disc Hl 0 L U eps eps) as G.
      assert (G0 : forall x, eps - x <= eps - IZR (rnd disc 0 x) * disc) by (intros x; specialize (RB x); lra).
      specialize (G G0). lra.
Qed.

(** termination *)
Lemma up_total F disc tail fuel : forall k v d, 0 < disc ->
  1 - tail / 2 <= F (v + INR fuel * disc) ->
  exists d', cdf_up fuel F disc tail k v d = Ok d'.
Proof.
  induction fuel as [|fuel IH]; intros k v d Hd H; cbn [cdf_up].
  - replace (v + INR 0 * disc) with v in H by (cbn; lra). rewrite Rltb_false by assumption. eauto.
  - destruct (Rltb _ _); [|eauto]. apply IH; [assumption|].
    replace (v + disc + INR fuel * disc) with (v + INR (S fuel) * disc) by (rewrite S_INR; lra). assumption.
Qed.
Lemma down_total F disc tail fuel : forall k v d, 0 < disc ->
  F (v - INR fuel * disc) <= tail / 2 ->
  exists d', cdf_down fuel F disc tail k v d = Ok d'.
Proof.
  induction fuel as [|fuel IH]; intros k v d Hd H; cbn [cdf_down].
  - replace (v - INR 0 * disc) with v in H by (cbn; lra). rewrite Rltb_false by assumption. eauto.
  - destruct (Rltb _ _); [|eauto]. apply IH; [assumption|].
    replace (v - disc - INR fuel * disc) with (v - INR (S fuel) * disc) by (rewrite S_INR; lra). assumption.
Qed.

Lemma cdf_total l inf pess disc tail : 0 < disc -> 0 <= tail ->
  rsum snd l + inf = 1 -> inf <= tail / 2 ->
  exists fuel D, create_from_cdf fuel (loss_cdf l) pess disc tail = Ok D.
Proof.
  intros Hd Ht Hs Hi.
  assert (B : exists N : nat, forall lp, In lp l -> - (INR N * disc) < fst lp <= INR N * disc).
  { clear Hs. induction l as [|[x p] l' IH]; [exists O; intros lp []|].
    destruct IH as [N IH].
    set (M := Z.to_nat (Z.max (Rceil (x / disc)) (Rceil (- x / disc)) + 1)).
    exists (N + M)%nat. assert (0 <= INR N) by apply pos_INR. assert (0 <= INR M) by apply pos_INR.
    intros lp [<-|Hin]; rewrite plus_INR.
    - cbn [fst]. pose proof (Rceil_spec (x / disc)) as B1. pose proof (Rceil_spec (- x / disc)) as B2.
      assert (E1 : x / disc * disc = x) by (field; lra). assert (E2 : - x / disc * disc = - x) by (field; lra).
      assert (LM : IZR (Z.max (Rceil (x / disc)) (Rceil (- x / disc)) + 1) <= INR M).
      { unfold M. rewrite INR_IZR_INZ. apply IZR_le. lia. }
      rewrite plus_IZR in LM.
      pose proof (IZR_le _ _ (Z.le_max_l (Rceil (x / disc)) (Rceil (- x / disc)))).
      pose proof (IZR_le _ _ (Z.le_max_r (Rceil (x / disc)) (Rceil (- x / disc)))).
      split; nra.
    - specialize (IH lp Hin). split; nra. }
  destruct B as [N B]. exists N.
  unfold create_from_cdf.
  destruct (up_total (loss_cdf l) disc tail N (if pess then 1 else 0) 0 []) as [d1 ->]; [assumption| |].
  { replace (loss_cdf l (0 + INR N * disc)) with (rsum snd l); [lra|].
    unfold loss_cdf. rewrite rsum_filter. apply rsum_ext. intros lp Hin. specialize (B lp Hin).
    rewrite Rleb_true by lra. reflexivity. }
  cbn [bind].
  destruct (down_total (loss_cdf l) disc tail N (if pess then 0 else -1) 0 d1) as [d2 ->]; [assumption| |].
  { replace (loss_cdf l (0 - INR N * disc)) with 0; [lra|].
    unfold loss_cdf. rewrite rsum_filter. symmetry. apply rsum_zero. intros lp Hin. specialize (B lp Hin).
    rewrite Rleb_false by lra. reflexivity. }
  cbn [bind]. unfold create_from_rounded_probability.
  destruct (create_pmf_total d2 disc (if pess then tail else 0) pess) as [p ->]. eexists. reflexivity.
Qed.
