(** from_two_probability_mass_functions, whole function. *)
From Coq Require Import Sorting.Permutation.
From Verif Require Import Base XReal Exn PyDict TypesRelation ModelCommon ModelPmf ModelPld ModelMake
  SpecDP SpecPmf SpecPld SpecMake ProofDP ProofDict ProofPmf ProofCompose ProofCompose2 ProofPld
  ProofMake.

Lemma create_pmf_total d disc inf pess : exists p, create_pmf d disc inf pess = Ok p.
Proof.
  unfold create_pmf. destruct (_ <=? _)%Z eqn:E; [eexists; reflexivity|].
  destruct (to_dense_total (mkPmf disc inf pess (Sparse d))) as [q Eq].
  - cbn. intros L. rewrite L in E. discriminate.
  - exists q. exact Eq.
Qed.

Lemma created_total p d inf disc pess : 0 < disc -> 0 <= inf -> NoDup (keys d) -> nonneg_dict d ->
  create_pmf d disc inf pess = Ok p -> total p = dsum d (fun _ => 1) + inf.
Proof.
  intros Hd Hi ND NN HC. destruct (create_pmf_ok _ _ _ _ _ Hd Hi ND NN HC) as (W & PS & IM & _).
  unfold total. rewrite PS, IM. reflexivity.
Qed.

Section T.
  Context {O : Type} (eqb : O -> O -> bool).
  Hypothesis eqb_ok : forall a b, eqb a b = true <-> a = b.

  Lemma rounded_total lower upper pess disc bound : 0 < disc ->
    exists r, rounded_from_pmfs eqb lower upper pess disc bound = Ok r.
  Proof.
    intros Hd. unfold rounded_from_pmfs. destruct (fold_left _ _ _) as [pm inf].
    unfold round_pmf. rewrite (Reqb_false disc 0) by lra. cbn [andb bind]. eexists. reflexivity.
  Qed.

  Lemma two_total lower upper pess disc bound sym : 0 < disc ->
    exists D, from_two_pmfs eqb lower upper pess disc bound sym = Ok D.
  Proof.
    intros Hd. unfold from_two_pmfs.
    destruct (rounded_total lower upper pess disc bound Hd) as [[i d] ->]. cbn [bind].
    destruct (rounded_total upper lower pess disc bound Hd) as [[i' d'] ->]. cbn [bind].
    unfold create_from_rounded_probability.
    destruct (create_pmf_total d disc i pess) as [p ->]. cbn [bind].
    destruct (create_pmf_total d' disc i' pess) as [p' ->]. cbn [bind].
    destruct sym; eexists; reflexivity.
  Qed.

  Lemma two_inv lower upper pess disc bound sym D :
    from_two_pmfs eqb lower upper pess disc bound sym = Ok D ->
    symmetric D = sym /\
    (exists inf d, rounded_from_pmfs eqb lower upper pess disc bound = Ok (inf, d) /\
       create_pmf d disc inf pess = Ok (pmf_remove D)) /\
    (if sym then pmf_add D = pmf_remove D
     else exists inf d, rounded_from_pmfs eqb upper lower pess disc bound = Ok (inf, d) /\
       create_pmf d disc inf pess = Ok (pmf_add D)).
  Proof.
    unfold from_two_pmfs, create_from_rounded_probability. intros H.
    apply bind_Ok in H. destruct H as ([i d] & ER & H).
    destruct sym.
    - apply bind_Ok in H. destruct H as (p & EC & H). injection H as <-. cbn.
      split; [reflexivity|]. split; [|reflexivity]. exists i, d. auto.
    - apply bind_Ok in H. destruct H as ([i' d'] & ER' & H).
      apply bind_Ok in H. destruct H as (p & EC & H).
      apply bind_Ok in H. destruct H as (p' & EC' & H). injection H as <-. cbn.
      split; [reflexivity|]. split; [exists i, d; auto | exists i', d'; auto].
  Qed.

  (** the finite part of the upper distribution's mass *)
  Lemma mass_split upper lower bound : NoDup (map fst upper) -> NoDup (map fst lower) ->
    rsum (only_upper eqb lower) upper + rsum (kept eqb upper bound (fun _ => 1)) lower +
    rsum (dropped eqb upper bound) lower = rsum (fun ox => lexp (snd ox)) upper.
  Proof.
    intros N1 N2. rewrite Rplus_assoc, <- rsum_plus.
    set (f := fun o => match oget eqb upper o, oget eqb lower o with Some lp, Some _ => exp lp | _, _ => 0 end).
    rewrite (rsum_ext _ (fun ox => f (fst ox)) lower).
    2:{ intros [o x] Hin. unfold kept, dropped, f. cbn [fst snd].
        rewrite (oget_In eqb eqb_ok lower o x N2 Hin).
        destruct x, (oget eqb upper o); try lra. destruct (above_bound _ _); lra. }
    rewrite <- (rsum_map fst f lower).
    rewrite (rsum_support f (map fst lower) (map fst upper)); auto.
    - rewrite rsum_map, <- rsum_plus. apply rsum_ext. intros [o x] Hin. unfold only_upper, f. cbn [fst snd].
      rewrite (oget_In eqb eqb_ok upper o x N1 Hin). destruct x, (oget eqb lower o); cbn [lexp]; lra.
    - intros o Ho. unfold f in Ho.
      destruct (oget eqb upper o) as [lp|] eqn:E1; [|congruence].
      destruct (oget eqb lower o) as [lq|] eqn:E2; [|congruence].
      apply oget_some in E1; [|assumption]. apply oget_some in E2; [|assumption].
      split; intros _; apply in_map_iff; [exists (o, Some lp) | exists (o, Some lq)]; auto.
  Qed.

  Lemma dir_total lower upper pess disc bound inf d p : 0 < disc ->
    NoDup (map fst upper) -> NoDup (map fst lower) -> rsum (fun ox => lexp (snd ox)) upper = 1 ->
    rounded_from_pmfs eqb lower upper pess disc bound = Ok (inf, d) ->
    create_pmf d disc inf pess = Ok p ->
    wf p /\ pessimistic_estimate p = pess /\ discretization p = disc /\
    infinity_mass p <= 1 /\ total p <= 1 /\ (pess = true \/ bound = None -> proper p).
  Proof.
    intros Hd N1 N2 S1 HR HC.
    destruct (rounded_ok eqb _ _ _ _ _ _ _ HR) as (S & I & ND & NN & Hi).
    destruct (create_pmf_ok _ _ _ _ _ Hd Hi ND NN HC) as (W & PS & IM & DI & PE).
    pose proof (created_total p d inf disc pess Hd Hi ND NN HC) as T.
    rewrite S in T. pose proof (mass_split upper lower bound N1 N2) as MS. rewrite S1 in MS.
    assert (0 <= rsum (dropped eqb upper bound) lower).
    { apply rsum_nonneg. intros ox _. unfold dropped. destruct (snd ox); [|lra].
      destruct (oget eqb upper (fst ox)); [|lra]. destruct (above_bound _ _); [lra | apply exp_pos_nonneg]. }
    assert (0 <= psum p (fun _ => 1)) by (apply psum_nonneg; [assumption | intros; lra]).
    assert (T1 : total p <= 1) by (destruct pess; lra).
    split; [assumption|]. split; [assumption|]. split; [assumption|]. split; [unfold total in T1; lra|].
    split; [assumption|]. 
    - intros Hor. apply proper_total. split; [assumption|]. destruct Hor as [-> | ->]; [lra|].
      rewrite dropped_none in MS. destruct pess; [rewrite dropped_none in I|]; lra.
  Qed.

  Definition trunc_error (bound : logp) (l : odict O) : R :=
    match bound with Some b => INR (length l) * exp b | None => 0 end.

  Lemma two_pessimistic lower upper disc bound sym D :
    0 < disc -> distribution lower -> distribution upper ->
    from_two_pmfs eqb lower upper true disc bound sym = Ok D ->
    sound_pld D /\ proper (pmf_remove D) /\ proper (pmf_add D) /\ symmetric D = sym /\
    valid (two_exper eqb upper lower) /\
    (forall eps, hockey_stick (two_exper eqb upper lower) eps <= pmf_delta (pmf_remove D) (Fin eps) <=
       hockey_stick (two_exper eqb upper lower) (eps - disc) + trunc_error bound lower) /\
    (sym = false -> forall eps,
       hockey_stick (swap (two_exper eqb upper lower)) eps <= pmf_delta (pmf_add D) (Fin eps) <=
       hockey_stick (swap (two_exper eqb upper lower)) (eps - disc) + trunc_error bound upper).
  Proof.
    intros Hd [N2 S2] [N1 S1] H.
    destruct (two_inv _ _ _ _ _ _ _ H) as (SY & (i & d & ER & EC) & A).
    destruct (dir_total _ _ _ _ _ _ _ _ Hd N1 N2 S1 ER EC) as (W & PE & DI & IN & _ & PR).
    specialize (PR (or_introl eq_refl)).
    assert (V : valid (two_exper eqb upper lower)) by (apply two_valid; [assumption | split; auto | split; auto]).
    assert (F : forall eps, hockey_stick (two_exper eqb upper lower) eps <= pmf_delta (pmf_remove D) (Fin eps) <=
       hockey_stick (two_exper eqb upper lower) (eps - disc) + trunc_error bound lower).
    { intros eps. exact (pess_direction eqb eqb_ok _ _ _ _ _ _ _ eps Hd N1 N2 ER EC). }
    destruct sym.
    - split; [|split; [assumption|split; [rewrite A; assumption|split; [assumption|split; [assumption|split; [assumption|discriminate]]]]]].
      unfold sound_pld, sound_pmf. rewrite A. auto 10.
    - destruct A as (i' & d' & ER' & EC').
      destruct (dir_total _ _ _ _ _ _ _ _ Hd N2 N1 S2 ER' EC') as (W' & PE' & DI' & IN' & _ & PR').
      specialize (PR' (or_introl eq_refl)).
      split; [|split; [assumption|split; [assumption|split; [assumption|split; [assumption|split; [assumption|]]]]]].
      + unfold sound_pld, sound_pmf. repeat split; auto; try (apply W); try (apply W'). congruence.
      + intros _ eps. rewrite !hockey_two_swap by assumption.
        exact (pess_direction eqb eqb_ok _ _ _ _ _ _ _ eps Hd N2 N1 ER' EC').
  Qed.

  Lemma two_bounds lower upper disc bound sym D :
    0 < disc -> distribution lower -> distribution upper ->
    from_two_pmfs eqb lower upper true disc bound sym = Ok D ->
    (sym = true -> forall eps, hockey_stick (swap (two_exper eqb upper lower)) eps <=
                               hockey_stick (two_exper eqb upper lower) eps) ->
    pld_bounds D (two_exper eqb upper lower).
  Proof.
    intros Hd D1 D2 H Hs.
    destruct (two_pessimistic _ _ _ _ _ _ Hd D1 D2 H) as (S & P1 & P2 & SY & V & F & A).
    split; [assumption|]. split; intros eps; apply dp_iff_hockey.
    - apply F.
    - destruct sym.
      + destruct S as (_ & _ & S). rewrite (S SY). eapply Rle_trans; [apply Hs; reflexivity | apply F].
      + apply A. reflexivity.
  Qed.

  Lemma two_optimistic lower upper disc bound sym D :
    0 < disc -> distribution lower -> distribution upper ->
    from_two_pmfs eqb lower upper false disc bound sym = Ok D ->
    wf_pld D /\ symmetric D = sym /\
    (forall eps, pmf_delta (pmf_remove D) (Fin eps) <= hockey_stick (two_exper eqb upper lower) eps) /\
    (bound = None -> forall eps, hockey_stick (two_exper eqb upper lower) (eps + disc) <=
                                 pmf_delta (pmf_remove D) (Fin eps)) /\
    (sym = false ->
     (forall eps, pmf_delta (pmf_add D) (Fin eps) <= hockey_stick (swap (two_exper eqb upper lower)) eps) /\
     (bound = None -> forall eps, hockey_stick (swap (two_exper eqb upper lower)) (eps + disc) <=
                                  pmf_delta (pmf_add D) (Fin eps))).
  Proof.
    intros Hd [N2 S2] [N1 S1] H.
    destruct (two_inv _ _ _ _ _ _ _ H) as (SY & (i & d & ER & EC) & A).
    destruct (dir_total _ _ _ _ _ _ _ _ Hd N1 N2 S1 ER EC) as (W & _).
    assert (F : forall eps, pmf_delta (pmf_remove D) (Fin eps) <= hockey_stick (two_exper eqb upper lower) eps /\
       (bound = None -> hockey_stick (two_exper eqb upper lower) (eps + disc) <= pmf_delta (pmf_remove D) (Fin eps))).
    { intros eps. exact (opt_direction eqb eqb_ok _ _ _ _ _ _ _ eps Hd N1 N2 ER EC). }
    assert (WP : wf_pld D).
    { destruct sym.
      - unfold wf_pld. rewrite A. auto.
      - destruct A as (i' & d' & ER' & EC').
        destruct (dir_total _ _ _ _ _ _ _ _ Hd N2 N1 S2 ER' EC') as (W' & _).
        split; [assumption|]. split; [assumption|]. congruence. }
    split; [assumption|]. split; [assumption|]. split; [intros; apply F|]. split; [intros; apply F; assumption|].
    intros ->. destruct A as (i' & d' & ER' & EC').
    assert (G := fun eps => opt_direction eqb eqb_ok _ _ _ _ _ _ _ eps Hd N2 N1 ER' EC').
    split; intros; rewrite hockey_two_swap by assumption; apply G; assumption.
  Qed.

  (** when the grid contains the losses, nothing is lost *)
  Lemma round_exact pess disc k : 0 < disc -> round_fn pess (IZR k * disc / disc) = k.
  Proof.
    intros Hd. replace (IZR k * disc / disc) with (IZR k) by (field; lra).
    destruct pess; cbn [round_fn].
    - apply Rceil_unique. lra.
    - apply Rfloor_unique. lra.
  Qed.

  Lemma dir_exact lower upper pess disc inf d p eps : 0 < disc ->
    NoDup (map fst upper) -> NoDup (map fst lower) ->
    (forall o lp lq, In (o, Some lp) upper -> In (o, Some lq) lower -> exists k, lp - lq = IZR k * disc) ->
    rounded_from_pmfs eqb lower upper pess disc None = Ok (inf, d) ->
    create_pmf d disc inf pess = Ok p ->
    pmf_delta p (Fin eps) = hockey_stick (two_exper eqb upper lower) eps.
  Proof.
    intros Hd N1 N2 G HR HC.
    destruct (one_direction eqb _ _ _ _ _ _ _ _ Hd N1 N2 HR HC) as (W & _ & _ & I & E).
    rewrite E, I, hockey_two by assumption.
    rewrite (rsum_ext (kept eqb upper None _) (fun ox => both eqb upper lower eps (fst ox)) lower).
    { rewrite dropped_none. destruct pess; lra. }
    intros [o x] Hin. destruct x as [lq|].
    2:{ unfold kept, both. cbn [snd fst]. rewrite (oget_In eqb eqb_ok lower o None N2 Hin).
        destruct (oget eqb upper o); reflexivity. }
    unfold kept. cbn [snd fst]. destruct (oget eqb upper o) as [lp|] eqn:Eu.
    2:{ unfold both. rewrite Eu. reflexivity. }
    cbn [above_bound].
    pose proof (both_loss eqb eqb_ok upper lower eps (o, Some lq) lp lq N2 Hin eq_refl Eu) as BL.
    cbn [fst] in BL. rewrite BL. f_equal. destruct (G o lp lq) as [k Ek]; auto.
    { apply oget_some in Eu; assumption. }
    rewrite Ek, round_exact by assumption. reflexivity.
  Qed.

  Lemma two_exact lower upper pess disc sym D :
    0 < disc -> distribution lower -> distribution upper ->
    (forall o lp lq, In (o, Some lp) upper -> In (o, Some lq) lower -> exists k, lp - lq = IZR k * disc) ->
    from_two_pmfs eqb lower upper pess disc None sym = Ok D ->
    (forall eps, pmf_delta (pmf_remove D) (Fin eps) = hockey_stick (two_exper eqb upper lower) eps) /\
    (sym = false -> forall eps, pmf_delta (pmf_add D) (Fin eps) =
                                hockey_stick (swap (two_exper eqb upper lower)) eps).
  Proof.
    intros Hd [N2 S2] [N1 S1] G H.
    destruct (two_inv _ _ _ _ _ _ _ H) as (SY & (i & d & ER & EC) & A). split.
    - intros eps. eapply dir_exact; eassumption.
    - intros -> eps. destruct A as (i' & d' & ER' & EC'). rewrite hockey_two_swap by assumption.
      eapply dir_exact; try eassumption. intros o lp lq H1 H2. destruct (G o lq lp H2 H1) as [k Ek].
      exists (- k)%Z. rewrite opp_IZR. lra.
  Qed.
End T.
