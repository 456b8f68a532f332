(** The privacy-buckets construction from an additive noise mechanism. *)
From Verif Require Import Base XReal Exn PyDict TypesAdjacency ModelPmf ModelPld ModelMake ModelMech SpecDP SpecPmf SpecPld SpecMech SpecClasses SpecConstruct
  ProofDP ProofDict ProofPmf ProofMake ProofPeak ProofNoise ProofShape ProofShapeGauss ProofShapeInt ProofAdditive ProofClasses ProofMechTop ProofBuckets.
Local Arguments Rltb : simpl never.
Local Arguments Rleb : simpl never.
Local Arguments Reqb : simpl never.

Lemma sub_remove_nan q l : l <> NaN -> sub_remove q l <> NaN.
Proof. destruct l; cbn [sub_remove]; try congruence; try discriminate. destruct (Reqb q 1); discriminate. Qed.
Lemma sub_remove_limit q l : 0 < q < 1 -> l <> NaN -> xleb (Fin (ln (1 - q))) (sub_remove q l) = true.
Proof.
  intros Hq N. destruct l as [a| | |]; cbn [sub_remove]; try congruence; try reflexivity.
  - apply xleb_fin. pose proof (exp_pos a). assert (0 < q * exp a) by (apply Rmult_lt_0_compat; lra). apply ln_le_iff; lra.
  - rewrite Reqb_false by lra. apply xleb_fin. lra.
Qed.
Lemma sub_loss_limit adj q l : 0 < q < 1 -> l <> NaN ->
  match adj with REMOVE => xleb (Fin (loss_limit REMOVE q)) (sub_loss REMOVE q l) = true | ADD => xleb (sub_loss ADD q l) (Fin (loss_limit ADD q)) = true end.
Proof.
  intros Hq N. destruct adj; cbn [sub_loss loss_limit]; [|apply sub_remove_limit; assumption].
  change (Fin (- ln (1 - q))) with (xneg (Fin (ln (1 - q)))). apply xleb_neg. apply sub_remove_limit; [assumption|]. destruct l; cbn; congruence.
Qed.
Lemma sub_loss_fin adj q a : exists b, sub_loss adj q (Fin a) = Fin b.
Proof. destruct adj; cbn [sub_loss xneg sub_remove]; eexists; reflexivity. Qed.
Lemma sub_loss_strict adj q a b : 0 < q <= 1 -> a < b -> xltb (sub_loss adj q (Fin a)) (sub_loss adj q (Fin b)) = true.
Proof.
  intros Hq H. destruct adj; cbn [sub_loss xneg sub_remove xltb]; apply Rltb_true.
  - assert (exp (- b) < exp (- a)) by (apply exp_increasing; lra). pose proof (exp_pos (- b)).
    apply Ropp_lt_contravar, ln_increasing; [assert (0 < q * exp (- b)) by (apply Rmult_lt_0_compat; lra); lra|].
    apply Rplus_lt_compat_r, Rmult_lt_compat_l; lra.
  - assert (exp a < exp b) by (apply exp_increasing; lra). pose proof (exp_pos a).
    apply ln_increasing; [assert (0 < q * exp a) by (apply Rmult_lt_0_compat; lra); lra|].
    apply Rplus_lt_compat_r, Rmult_lt_compat_l; lra.
Qed.

Lemma possible_cases adj q l : loss_possible adj q l \/ ~ loss_possible adj q l.
Proof.
  unfold loss_possible. destruct (Rlt_dec q 1); [|left; tauto].
  destruct adj; [destruct (Rlt_dec l (loss_limit ADD q)) | destruct (Rlt_dec (loss_limit REMOVE q) l)]; tauto.
Qed.

Section Inst.
  Context (F : R -> R) (s : R) (pk : R -> xr) (cdf : xr -> R) (loss0 inv0 : adjacency -> xr -> res xr) (pt : adjacency -> R -> Prop) (Lf : R -> xr).
  Hypothesis HF : fits F s pk cdf inv0.
  Hypothesis HLo : loses s pk loss0 pt Lf.
  Context (q : R) (Hq : 0 < q <= 1) (adj : adjacency) (discrete : bool) (tail : res tail_pld) (bounds : res dots_bounds).
  Let m := additive s q adj cdf (loss0 adj) (inv0 adj) discrete tail bounds.
  Let U := upper_law adj F q s.
  Let L := lower_law adj F q s.
  Let p := peak adj q s pk.

  Lemma in_mu x : mu_upper_cdf m x = at_end U x.
  Proof. apply (upper_cdf _ _ _ _ _ HF q Hq). Qed.
  Lemma in_loss x lx : privacy_loss m (Fin x) = Ok lx ->
    pt adj x /\ lx = sub_loss adj q (base_loss s Lf adj x) /\ base_loss s Lf adj x <> NaN.
  Proof.
    intros H. pose proof (loss_pt _ _ _ _ _ HLo q _ _ _ H) as P. split; [assumption|].
    unfold m in H. cbn [additive privacy_loss] in H. rewrite (loss_ok _ _ _ _ _ HLo q Hq adj x P) in H. injection H as <-.
    split; [reflexivity | apply (base_ok _ _ _ _ _ HLo adj x P)].
  Qed.
  Lemma in_loss_nan x lx : privacy_loss m (Fin x) = Ok lx -> lx <> NaN.
  Proof. intros H. destruct (in_loss x lx H) as (_ & -> & N). apply sub_loss_nan, N. Qed.
  Lemma not_possible l : ~ loss_possible adj q l -> q < 1 /\ match adj with REMOVE => l <= loss_limit adj q | ADD => loss_limit adj q <= l end.
  Proof.
    unfold loss_possible. intros H. destruct (Rlt_dec q 1) as [Q|Q]; [|exfalso; apply H; tauto]. split; [assumption|].
    destruct adj; apply Rnot_lt_le; intros N; apply H; intros _; assumption.
  Qed.
  Lemma in_strict x lx l : privacy_loss m (Fin x) = Ok lx -> xltb lx (Fin l) = true -> xltb (p l) (Fin x) = true.
  Proof.
    intros Hx Hl. pose proof (in_loss_nan x lx Hx) as N. destruct (in_loss x lx Hx) as (P & El & Nb).
    destruct (possible_cases adj q l) as [HP|HP].
    - rewrite xltb_leb in Hl |- * by (assumption || discriminate || apply (law_uni _ _ _ _ _ HF q Hq adj l)).
      destruct (xleb (Fin x) (p l)) eqn:E; [|reflexivity]. apply (loss_galois _ _ _ _ _ HLo q Hq adj x lx l Hx HP) in E. rewrite E in Hl. assumption.
    - destruct (not_possible l HP) as [Q K]. pose proof (sub_loss_limit adj q (base_loss s Lf adj x) ltac:(lra) Nb) as B.
      unfold p. destruct adj; cbn [peak].
      + unfold peak_add. rewrite Rltb_false; [reflexivity|].
        assert (E : ~ exp l * (1 - q) < 1); [|lra]. intros E. apply HP. intros _. apply (exp_limit q ADD l Q). assumption.
      + rewrite <- El in B. pose proof (xleb_trans _ _ _ (proj2 (xleb_fin _ _) K) B) as B'.
        rewrite xltb_leb, B' in Hl by (assumption || discriminate). discriminate.
  Qed.
  Lemma in_weak x lx l : privacy_loss m (Fin x) = Ok lx -> xleb (Fin l) lx = true -> ~ near_limit adj q l -> xleb (Fin x) (p l) = true.
  Proof.
    intros Hx Hl HN. destruct (in_loss x lx Hx) as (P & El & Nb). destruct (possible_cases adj q l) as [HP|HP].
    - apply (loss_galois _ _ _ _ _ HLo q Hq adj x lx l Hx HP), Hl.
    - destruct (not_possible l HP) as [Q K]. pose proof (sub_loss_limit adj q (base_loss s Lf adj x) ltac:(lra) Nb) as B.
      unfold p. destruct adj; cbn [peak].
      + exfalso. rewrite <- El in B. pose proof (xleb_trans _ _ _ Hl B) as B'. apply xleb_fin in B'.
        apply HN. split; [assumption|]. assert (l = loss_limit ADD q) as -> by lra.
        replace (loss_limit ADD q - loss_limit ADD q) with 0 by ring. rewrite Rabs_R0.
        apply Rmult_le_pos; [lra|]. eapply Rle_trans; [apply Rabs_pos | apply Rmax_l].
      + unfold peak_remove. rewrite Rltb_false; [reflexivity|].
        assert (E : ~ 1 - q < exp l); [|lra]. intros E. apply HP. intros _. apply (exp_limit q REMOVE l Q). assumption.
  Qed.
  Lemma in_inverse l x : inverse_privacy_loss m (Fin l) = Ok x -> ~ near_limit adj q l -> x = p l.
  Proof.
    intros H HN. unfold m in H. cbn [additive inverse_privacy_loss] in H. destruct (possible_cases adj q l) as [HP|HP].
    - rewrite (inverse_ok _ _ _ _ _ HF q Hq adj l HP HN) in H. injection H as <-. reflexivity.
    - rewrite (inverse_raises inv0 q Hq adj l HP HN) in H. discriminate.
  Qed.

  Context (disc : R) (Hd : 0 < disc).
  Definition in_clear : Prop := forall z, ~ near_limit adj q (IZR z * disc).
  Definition in_HP := fun eps => law_peaked _ _ _ _ _ HF q Hq adj eps.
  Definition in_U : is_cdf U := proj1 (law_cdf _ _ _ _ _ HF q Hq adj).
  Definition in_L : is_cdf L := proj2 (law_cdf _ _ _ _ _ HF q Hq adj).

  (** the tail part of the construction *)
  Definition tail_fits (pess : bool) (t : tail_pld) (lo hi : R) : Prop :=
    forall d0, tail_rounded pess disc (tail_masses t) [] = Ok d0 ->
    fine d0 /\ 0 <= tail_infinity (tail_masses t) <= 1 /\
    forall eps, exists v1 v2, est U L p pess eps MInf (Fin lo) v1 /\ est U L p pess eps (Fin hi) PInf v2 /\
      v1 + v2 = tail_infinity (tail_masses t) + dsum d0 (hgain disc eps).

  Definition tail_ok (pess : bool) : Prop := forall t, privacy_loss_tail m = Ok t ->
    if discrete then
      exists zl zu, lower_x_truncation t = IZR zl /\ upper_x_truncation t = IZR zu /\ (zl - 1 <= zu)%Z /\
        (forall l a, p l = Fin a -> a = IZR (Rfloor a)) /\ tail_fits pess t (IZR (zl - 1)) (IZR zu)
    else
      lower_x_truncation t <= upper_x_truncation t /\ (forall x, exists a, privacy_loss m (Fin x) = Ok (Fin a)) /\
      tail_fits pess t (lower_x_truncation t) (upper_x_truncation t).

  Lemma ceil_Z z : Rceil (IZR z) = z.
  Proof. apply Rceil_unique. lra. Qed.
  Lemma buckets_good (pess : bool) fuel r : ((discrete && pess)%bool = false -> in_clear) -> tail_ok pess -> buckets_pmf fuel m pess disc = Ok r ->
    wf r /\ infinity_mass r <= 1 /\ pessimistic_estimate r = pess /\ (if pess then curve_above r U L else curve_below r U L).
  Proof.
    intros Hclear HT. unfold buckets_pmf. destruct (privacy_loss_tail m) as [t|] eqn:Et; cbn [bind]; [|discriminate].
    specialize (HT t Et). destruct (tail_rounded pess disc (tail_masses t) []) as [d0|] eqn:E0; cbn [bind]; [|discriminate].
    assert (FIN : forall d1 lo hi, tail_fits pess t lo hi -> (fine d0 -> gains U L p disc pess d0 d1 (Fin lo) (Fin hi)) ->
      create_pmf d1 disc (tail_infinity (tail_masses t)) pess = Ok r ->
      wf r /\ infinity_mass r <= 1 /\ pessimistic_estimate r = pess /\ (if pess then curve_above r U L else curve_below r U L)).
    { intros d1 lo hi TF G HC. destruct (TF d0 E0) as (F0 & I01 & EST). destruct (G F0) as [[ND NN] G1].
      destruct (create_pmf_ok _ _ _ _ _ Hd (proj1 I01) ND NN HC) as (W & PS & IM & DI & PE).
      split; [assumption|]. split; [rewrite IM; apply I01|]. split; [assumption|].
      assert (K : forall eps delta, divergence_is U L eps delta -> est U L p pess eps MInf PInf (pmf_delta r (Fin eps)) /\ delta = part U L p eps MInf PInf).
      { intros eps delta HD. split.
        - destruct (EST eps) as (v1 & v2 & B1 & B2 & EV). specialize (G1 eps).
          eapply est_eq; [apply (est_join U L p _ _ _ _ _ _ _ B1 (est_join U L p _ _ _ _ _ _ _ G1 B2))|].
          rewrite pmf_delta_psum by assumption. unfold ptest. rewrite PS, IM, DI. lra.
        - rewrite (part_all U L p in_HP). apply (divergence_unique _ _ _ _ _ HD). apply (delta_at_peak _ _ _ _ _ HF q Hq adj eps). }
      destruct pess; intros eps delta HD; destruct (K eps delta HD) as [K1 ->]; exact K1. }
    change (is_discrete m) with discrete. case_eq discrete; intros Edisc; rewrite Edisc in HT, Hclear; cbn [andb] in Hclear.
    - destruct HT as (zl & zu & -> & -> & Hz & HI & TF). rewrite ceil_Z, Rfloor_IZR.
      destruct (point_masses m pess disc zl _ d0) as [d1|] eqn:E1; cbn [bind]; [|discriminate]. intros HC.
      apply (FIN d1 _ _ TF); [|exact HC]. intros F0.
      pose proof (point_masses_gains U L in_U in_L p in_HP m disc Hd (fun l => ~ near_limit adj q l) in_mu in_strict in_weak pess _ Hclear zl d0 d1 HI F0 E1) as G.
      replace (zl + Z.of_nat (Z.to_nat (zu - zl + 1)) - 1)%Z with zu in G by lia. exact G.
    - destruct HT as (Hlu & HTot & TF). set (lo := lower_x_truncation t) in *. set (hi := upper_x_truncation t) in *.
      destruct (privacy_loss m (Fin lo)) as [l1|] eqn:El; cbn [bind]; [|discriminate].
      destruct (round_xr false (xdiv l1 (Fin disc))) as [down|] eqn:Er; cbn [bind]; [|discriminate].
      destruct (privacy_loss m (Fin hi)) as [ul|] eqn:Eu; cbn [bind]; [|discriminate].
      destruct (interval_masses fuel m pess disc hi ul (Fin lo) down d0) as [d1|] eqn:E1; cbn [bind]; [|discriminate]. intros HC.
      apply (FIN d1 _ _ TF); [|exact HC]. intros F0.
      destruct (round_bound disc Hd _ _ _ Er) as (a & -> & B1 & B2). specialize (B2 eq_refl).
      apply (interval_masses_gains U L in_U in_L p in_HP m disc Hd (fun l => ~ near_limit adj q l) in_mu in_loss_nan in_strict in_weak in_inverse
               pess hi ul (Hclear eq_refl) HTot Eu fuel (Fin lo) down d0 d1 F0); [apply xleb_fin; assumption | | | exact E1].
      + apply xltb_le. apply (in_strict _ _ _ El). cbn. apply Rltb_true. rewrite Rmult_comm. assumption.
      + apply (in_weak _ _ _ El); [apply xleb_fin; rewrite Rmult_comm; assumption|]. rewrite Rmult_comm. apply (Hclear eq_refl).
  Qed.

  Lemma fine_nil : fine [].
  Proof. split; [constructor|]. intros k. cbn. lra. Qed.
  Lemma tail_one (pess : bool) l v : l <> PInf -> forall d0, tail_rounded pess disc [(l, v)] [] = Ok d0 ->
    exists k, round_xr pess (xdiv l (Fin disc)) = Ok k /\ d0 = dadd [] k v.
  Proof.
    intros N d0. cbn [tail_rounded]. assert (xeqb l PInf = false) as -> by (destruct l; cbn; congruence).
    destruct (round_xr pess _) as [k|]; cbn [bind]; [|discriminate]. intros [= <-]. exists k. split; reflexivity.
  Qed.
  Lemma tail_two (pess : bool) l1 v1 l2 v2 : l1 <> PInf -> l2 <> PInf -> forall d0, tail_rounded pess disc [(l1, v1); (l2, v2)] [] = Ok d0 ->
    exists k1 k2, round_xr pess (xdiv l1 (Fin disc)) = Ok k1 /\ round_xr pess (xdiv l2 (Fin disc)) = Ok k2 /\ d0 = dadd (dadd [] k1 v1) k2 v2.
  Proof.
    intros N1 N2 d0. cbn [tail_rounded]. assert (xeqb l1 PInf = false) as -> by (destruct l1; cbn; congruence).
    destruct (round_xr pess (xdiv l1 _)) as [k1|]; cbn [bind]; [|discriminate]. assert (xeqb l2 PInf = false) as -> by (destruct l2; cbn; congruence).
    destruct (round_xr pess (xdiv l2 _)) as [k2|]; cbn [bind]; [|discriminate]. intros [= <-]. exists k1, k2. auto.
  Qed.
  Lemma U_01 x : 0 <= at_end U x <= 1.
  Proof. apply at_end_01, in_U. Qed.

  (** two finite tails: the losses of the two tails are the extreme ones (Laplace noise) *)
  Lemma tail_fits_two (pess : bool) (good : R -> Prop) t lo hi l1 l2 : (pess = false -> in_clear) ->
    tail_masses t = [(Fin l1, at_end U (Fin lo)); (Fin l2, 1 - at_end U (Fin hi))] ->
    good 0 -> (forall x, good x -> exists a, privacy_loss m (Fin x) = Ok (Fin a) /\ l2 <= a <= l1) ->
    (forall l a, p l = Fin a -> good a) -> (forall r, exists x, good x /\ r < x) ->
    privacy_loss m (Fin lo) = Ok (Fin l1) ->
    (forall k, round_xr true (xdiv (Fin l2) (Fin disc)) = Ok k -> cell U L true (Fin hi) PInf (IZR k * disc)) ->
    tail_fits pess t lo hi.
  Proof.
    intros Hclear ET G0 HG HI HR H1 H2 d0 HT. rewrite ET in HT |- *. apply tail_two in HT; [|discriminate | discriminate].
    destruct HT as (k1 & k2 & R1 & R2 & ->). pose proof (U_01 (Fin lo)) as B1. pose proof (U_01 (Fin hi)) as B2.
    assert (F1 : fine (dadd [] k1 (at_end U (Fin lo)))) by (apply fine_dadd; [apply fine_nil | apply B1]).
    split; [apply fine_dadd; [exact F1 | lra]|]. split; [cbn; lra|]. intros eps.
    exists ((at_end U (Fin lo) - at_end U MInf) * pos (1 - exp (eps - IZR k1 * disc))), ((at_end U PInf - at_end U (Fin hi)) * pos (1 - exp (eps - IZR k2 * disc))).
    destruct (round_bound disc Hd _ _ _ R1) as (a1 & [= <-] & K1 & _). destruct (round_bound disc Hd _ _ _ R2) as (a2 & [= <-] & K2 & _).
    pose proof (fun b l => cell_all U L in_U in_L p in_HP m (fun l => ~ near_limit adj q l) in_strict in_weak b good l) as CA.
    split; [|split].
    - apply (cell_est U L in_U in_L p in_HP); [reflexivity|]. destruct pess.
      + apply (CA true (IZR k1 * disc) (Fin lo) 0 G0); [|assumption | assumption | discriminate].
        intros x Gx. destruct (HG x Gx) as (a & Ea & Ba). exists a. split; [assumption | lra].
      + apply (cell_left U L p in_HP m disc Hd (fun l => ~ near_limit adj q l) in_weak MInf lo (Fin l1)); [apply (Hclear eq_refl) | reflexivity | assumption | assumption].
    - apply (cell_est U L in_U in_L p in_HP); [reflexivity|]. destruct pess; [apply H2; assumption|].
      apply (CA false (IZR k2 * disc) (Fin hi) 0 G0); [|assumption | assumption | intros _; apply (Hclear eq_refl) | reflexivity].
      intros x Gx. destruct (HG x Gx) as (a & Ea & Ba). exists a. split; [assumption | lra].
    - rewrite dsum_dadd by apply F1. rewrite dsum_dadd by constructor. cbn. unfold hgain. lra.
  Qed.

  (** the lower tail counted as infinite, and nothing or a finite upper tail (Gaussian noise) *)
  Lemma tail_fits_inf t lo hi l2 : tail_masses t = [(PInf, at_end U (Fin lo)); (l2, 1 - at_end U (Fin hi))] -> l2 <> PInf ->
    privacy_loss m (Fin hi) = Ok l2 -> tail_fits true t lo hi.
  Proof.
    intros ET N2 H2 d0 HT. rewrite ET in HT |- *. change (tail_rounded true disc [(l2, 1 - at_end U (Fin hi))] [] = Ok d0) in HT.
    apply tail_one in HT; [|assumption]. destruct HT as (k & R & ->). pose proof (U_01 (Fin lo)). pose proof (U_01 (Fin hi)).
    split; [apply fine_dadd; [apply fine_nil | lra]|].
    assert (I : tail_infinity [(PInf, at_end U (Fin lo)); (l2, 1 - at_end U (Fin hi))] = at_end U (Fin lo)) by (unfold tail_infinity; destruct l2; cbn; congruence).
    split; [rewrite I; lra|]. intros eps.
    exists (at_end U (Fin lo)), ((at_end U PInf - at_end U (Fin hi)) * pos (1 - exp (eps - IZR k * disc))). split; [|split].
    - apply (est_inf U L in_U in_L p in_HP). discriminate.
    - apply (cell_est U L in_U in_L p in_HP); [reflexivity|]. apply (cell_right U L in_U in_L p in_HP m disc Hd in_strict hi PInf l2); assumption.
    - rewrite I, dsum_dadd by constructor. cbn. unfold hgain. lra.
  Qed.
  Lemma tail_fits_none (pess : bool) t lo hi : tail_masses t = [(PInf, at_end U (Fin lo))] -> at_end L (Fin lo) = 0 -> at_end U (Fin hi) = 1 ->
    tail_fits pess t lo hi.
  Proof.
    intros ET HL0 HU1 d0 HT. rewrite ET in HT |- *. injection HT as <-. pose proof (U_01 (Fin lo)). split; [apply fine_nil|].
    assert (I : tail_infinity [(PInf, at_end U (Fin lo))] = at_end U (Fin lo)) by reflexivity. split; [rewrite I; assumption|].
    intros eps. exists (at_end U (Fin lo)), 0. split; [|split].
    - destruct pess; [apply (est_inf U L in_U in_L p in_HP); discriminate | apply (est_inf_below U L p in_HP); [discriminate | assumption]].
    - apply (est_none U L in_U in_L p in_HP); [reflexivity|]. destruct pess; [rewrite HU1; reflexivity | exact Logic.I].
    - rewrite I. cbn [dsum map rsum]. unfold dsum. cbn. ring.
  Qed.
  Lemma tail_fits_low t lo hi l1 : in_clear -> tail_masses t = [(l1, at_end U (Fin lo))] -> l1 <> PInf -> privacy_loss m (Fin lo) = Ok l1 ->
    tail_fits false t lo hi.
  Proof.
    intros Hclear ET N1 H1 d0 HT. rewrite ET in HT |- *. apply tail_one in HT; [|assumption]. destruct HT as (k & R & ->). pose proof (U_01 (Fin lo)).
    split; [apply fine_dadd; [apply fine_nil | lra]|].
    assert (I : tail_infinity [(l1, at_end U (Fin lo))] = 0) by (cbn; destruct l1; cbn; congruence).
    split; [rewrite I; lra|]. intros eps.
    exists ((at_end U (Fin lo) - at_end U MInf) * pos (1 - exp (eps - IZR k * disc))), 0. split; [|split].
    - apply (cell_est U L in_U in_L p in_HP); [reflexivity|].
      apply (cell_left U L p in_HP m disc Hd (fun l => ~ near_limit adj q l) in_weak MInf lo l1); [exact Hclear | reflexivity | assumption | assumption].
    - apply (est_none U L in_U in_L p in_HP); [reflexivity | exact Logic.I].
    - rewrite I, dsum_dadd by constructor. cbn. unfold hgain. lra.
  Qed.
End Inst.
