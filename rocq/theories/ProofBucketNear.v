(** Pessimistic privacy buckets of continuous noise on a grid that may meet the limit of the privacy loss. *)
From Verif Require Import Base XReal Exn PyDict TypesAdjacency ModelLog ModelCommon ModelPmf ModelPld ModelMake ModelMech SpecDP SpecPmf SpecPld SpecMech SpecClasses SpecConstruct SpecAccErr
  ProofDP ProofDict ProofPmf ProofMake ProofPeak ProofNoise ProofShape ProofShapeGauss ProofShapeInt ProofAdditive ProofClasses ProofMechTop ProofBuckets ProofTails ProofTailClasses ProofConstruct ProofConstructEx
  ProofNoiseNear ProofGrid ProofGridMass.
Local Arguments Rltb : simpl never.
Local Arguments Rleb : simpl never.
Local Arguments Reqb : simpl never.

(** two neighbouring losses *)
Lemma pos_shift eps c l err : 0 <= err -> exp (c - l) - 1 <= err -> pos (1 - exp (eps - c)) <= pos (1 - exp (eps - l)) + err.
Proof.
  intros He H. rewrite (pos_max (1 - exp (eps - c))), (pos_max (1 - exp (eps - l))). pose proof (Rmax_l 0 (1 - exp (eps - l))). pose proof (Rmax_r 0 (1 - exp (eps - l))).
  apply Rmax_lub; [lra|]. destruct (Rle_dec (exp (eps - c)) 1) as [A|A]; [|lra].
  assert (E : exp (eps - l) = exp (eps - c) * exp (c - l)) by (rewrite <- exp_plus; f_equal; lra).
  pose proof (exp_pos (eps - c)). assert (exp (eps - c) * (exp (c - l) - 1) <= err); [|lra].
  destruct (Rle_dec 0 (exp (c - l) - 1)); nra.
Qed.
Lemma hgain_step disc eps k j : 0 < disc -> (k <= j)%Z -> hgain disc eps (k + 1) <= hgain disc eps j + (1 - exp (- disc)).
Proof.
  intros Hd Hk. unfold hgain. rewrite plus_IZR. pose proof (IZR_le _ _ Hk) as HR.
  assert (M : pos (1 - exp (eps - IZR k * disc)) <= pos (1 - exp (eps - IZR j * disc))).
  { rewrite (pos_max (1 - exp (eps - IZR k * disc))), (pos_max (1 - exp (eps - IZR j * disc))). apply Rmax_lub; [apply Rmax_l|]. eapply Rle_trans; [|apply Rmax_r].
    assert (exp (eps - IZR j * disc) <= exp (eps - IZR k * disc)) by (apply exp_le; nra). lra. }
  assert (D1 : exp (- disc) < 1) by (rewrite <- exp_0; apply exp_increasing; lra).
  enough (pos (1 - exp (eps - (IZR k + 1) * disc)) <= pos (1 - exp (eps - IZR k * disc)) + (1 - exp (- disc))) by lra.
  replace (eps - (IZR k + 1) * disc) with ((eps - IZR k * disc) + - disc) by ring. rewrite exp_plus. set (t := exp (eps - IZR k * disc)).
  assert (0 < t) by apply exp_pos. pose proof (exp_pos (- disc)). rewrite (pos_max (1 - t * exp (- disc))), (pos_max (1 - t)). pose proof (Rmax_l 0 (1 - t)). pose proof (Rmax_r 0 (1 - t)).
  apply Rmax_lub; [lra|]. destruct (Rle_dec t 1); nra.
Qed.

(** the point of largest loss is approached from below only by the first points of the grid *)
Lemma near_upward q l l' : q < 1 -> 0 < q -> near_limit ADD q l -> l <= l' <= loss_limit ADD q -> near_limit ADD q l'.
Proof.
  intros Q1 Q0 [_ H] [A B]. split; [exact Q1|]. cbn [loss_limit] in *. set (c := - ln (1 - q)) in *.
  assert (C : 0 < c) by (unfold c; assert (ln (1 - q) < 0) by (rewrite <- ln_1; apply ln_increasing; lra); lra).
  assert (K : (1 / 10 ^ 9 : R) = 1 / 1000000000) by lra. rewrite K in *.
  rewrite (Rabs_right c) in * by lra. rewrite (Rabs_left1 (l - c)) in H by lra. rewrite (Rabs_left1 (l' - c)) by lra.
  assert (Lp : 0 <= l).
  { apply Rnot_lt_le. intros N. rewrite (Rabs_left l) in H by lra. assert (Rmax (- l) c <= - l + c) by (apply Rmax_lub; lra). nra. }
  rewrite (Rabs_right l), (Rmax_right l) in H by lra. pose proof (Rmax_r (Rabs l') c). nra.
Qed.

Lemma adjacency_cases adj : adj = ADD \/ adj = REMOVE.
Proof. destruct adj; auto. Qed.

Section Near.
  Context (U L : R -> R) (HU : is_cdf U) (HL : is_cdf L) (pk : R -> xr).
  Hypothesis HP : forall eps, peaked (gap U L (exp eps)) (1 - exp eps) (pk eps).
  Context (m : monotone) (disc : R) (Hd : 0 < disc).
  Hypothesis Hmu : forall x, mu_upper_cdf m x = at_end U x.
  Hypothesis HT : forall x, exists a, privacy_loss m (Fin x) = Ok (Fin a).
  Hypothesis Hstrict : forall x lx l, privacy_loss m (Fin x) = Ok lx -> xltb lx (Fin l) = true -> xltb (pk l) (Fin x) = true.
  Hypothesis Hweak : forall x lx l, privacy_loss m (Fin x) = Ok lx -> xleb (Fin l) lx = true -> xleb (Fin x) (pk l) = true.

  Lemma peaks_down l l' : l <= l' -> xleb (pk l') (pk l) = true.
  Proof.
    intros Hl. assert (K : forall r, xleb (Fin r) (pk l') = true -> xleb (Fin r) (pk l) = true).
    { intros r Hr. destruct (HT r) as (a & Ha). apply (Hweak _ _ _ Ha). apply xleb_fin.
      destruct (Rle_lt_dec l' a) as [Ok1|Lt]; [lra|]. exfalso.
      pose proof (Hstrict _ _ l' Ha) as S. cbn in S. rewrite Rltb_true in S by assumption. specialize (S eq_refl).
      rewrite xltb_leb, Hr in S by (apply (pk_nan U L pk HP) || discriminate). discriminate. }
    pose proof (pk_nan U L pk HP l') as N1. pose proof (pk_nan U L pk HP l) as N2.
    destruct (pk l') as [a| | |], (pk l) as [b| | |]; try congruence; try reflexivity.
    - apply K. apply xleb_fin. lra.
    - specialize (K a). cbn in K. rewrite Rleb_true in K by lra. specialize (K eq_refl). discriminate.
    - specialize (K (b + 1)). cbn in K. specialize (K eq_refl). revert K. destruct (Rleb_spec (b + 1) b); [exfalso; lra | discriminate].
    - specialize (K 0 eq_refl). discriminate.
  Qed.
  Lemma cell_from x y l : xleb (pk l) x = true -> cell U L true x y l.
  Proof. intros H. apply (cell_above U L HU HL pk HP). intros l' Hl. apply (xleb_trans _ (pk l)); [apply peaks_down; lra | exact H]. Qed.

  (** the part of the divergence in (x, y], up to an error *)
  Definition covers (err : R) (d d' : dict) (x y : xr) : Prop :=
    NoDup (keys d') /\ forall eps, part U L pk eps x y <= dsum d' (hgain disc eps) - dsum d (hgain disc eps) + err.
  Lemma covers_join e1 e2 d1 d2 d3 x y z : covers e1 d1 d2 x y -> covers e2 d2 d3 y z -> covers (e1 + e2) d1 d3 x z.
  Proof. intros [_ H1] [N H2]. split; [exact N|]. intros eps. specialize (H1 eps). specialize (H2 eps). unfold part in *. lra. Qed.
  Lemma covers_same d x : NoDup (keys d) -> covers 0 d d x x.
  Proof. intros N. split; [exact N|]. intros eps. unfold part. lra. Qed.
  Lemma covers_cell d k x y v : NoDup (keys d) -> xleb x y = true -> cell U L true x y (IZR k * disc) -> at_end U y - at_end U x <= v ->
    covers 0 d (dadd d k v) x y.
  Proof.
    intros ND H C Hv. split; [apply NoDup_dadd, ND|]. intros eps. pose proof (cell_est U L HU HL pk HP true eps x y _ H C) as E. cbn [est] in E.
    rewrite dsum_dadd by exact ND. unfold hgain. assert (0 <= pos (1 - exp (eps - IZR k * disc))) by (rewrite pos_max; apply Rmax_l). nra.
  Qed.

  Lemma loop_ends fuel upper ul x down d d' : xltb x (Fin upper) = false -> interval_masses fuel m true disc upper ul x down d = Ok d' -> d' = d.
  Proof. intros H. destruct fuel; cbn [interval_masses]; rewrite H; congruence. Qed.
  (** the loop, as long as the inverse returns the peak or ends it *)
  Lemma interval_covers upper ul down0 : privacy_loss m (Fin upper) = Ok ul ->
    (forall z p, (z <= down0)%Z -> inverse_privacy_loss m (Fin (disc * IZR z)) = Ok p -> p = pk (disc * IZR z) \/ p = PInf) ->
    forall fuel x down d d', (down <= down0)%Z -> NoDup (keys d) -> xleb x (Fin upper) = true ->
    xleb (pk (disc * IZR (down + 1))) x = true -> xleb x (pk (disc * IZR down)) = true ->
    interval_masses fuel m true disc upper ul x down d = Ok d' -> covers 0 d d' x (Fin upper).
  Proof.
    intros Hu Hinv. induction fuel as [|fuel IH]; intros x down d d' H0 ND Hx H1 H2; cbn [interval_masses];
      destruct (xltb x (Fin upper)) eqn:Lx; try discriminate.
    1, 3: intros [= <-]; assert (x = Fin upper) as -> by
        (apply xleb_antisym; [assumption|]; destruct (xleb_nan _ _ Hx) as [Nx _]; rewrite xltb_leb in Lx by (assumption || discriminate);
         destruct (xleb (Fin upper) x); [reflexivity | discriminate]);
      apply covers_same, ND.
    rewrite round_half. rewrite Rmult_comm in H1. destruct (xleb (Fin (disc * IZR down)) ul) eqn:Eu.
    - cbn [bind]. rewrite !Hmu. intros H. apply loop_ends in H; [|cbn [xltb]; apply Rltb_false; lra]. subst d'.
      apply covers_cell; [exact ND | exact Hx | apply cell_from, H1 | lra].
    - destruct (inverse_privacy_loss m (Fin (disc * IZR down))) as [x'|] eqn:Ei; cbn [bind]; [|discriminate]. rewrite !Hmu.
      destruct (Hinv _ _ H0 Ei) as [-> | ->].
      + assert (LT : xltb (pk (disc * IZR down)) (Fin upper) = true).
        { destruct (HT upper) as [a Ha]. rewrite Ha in Hu. injection Hu as <-. apply (Hstrict _ _ _ Ha). rewrite xltb_leb, Eu by discriminate. reflexivity. }
        intros H. replace 0 with (0 + 0) by ring. eapply covers_join; [apply (covers_cell d (down + 1)); [exact ND | exact H2 | apply cell_from, H1 | apply Rle_refl]|].
        apply (IH _ (down - 1)%Z) with (6 := H); [lia | apply NoDup_dadd, ND | apply xltb_le, LT | |].
        * replace (down - 1 + 1)%Z with down by lia. apply xleb_refl, (pk_nan U L pk HP).
        * apply peaks_down. apply Rmult_le_compat_l; [lra | apply IZR_le; lia].
      + intros H. apply loop_ends in H; [|reflexivity]. subst d'.
        apply covers_cell; [exact ND | exact Hx | apply cell_from, H1|]. apply Rplus_le_compat_r. cbn [at_end]. apply HU.
  Qed.

  (** the loop after an inverse of -inf, when the losses are at most c *)
  Context (c err : R) (near : R -> Prop).
  Hypothesis He : 0 <= err.
  Hypothesis Hc : forall l, c < l -> pk l = MInf.
  Hypothesis Hnear : forall l, near l -> exp (c - l) - 1 <= err.
  Hypothesis Hdown : forall l l', near l -> l <= l' <= c -> near l'.
  Hypothesis Hdec : forall l, near l \/ ~ near l.
  Hypothesis Hi1 : forall l, near l -> inverse_privacy_loss m (Fin l) = Ok MInf.
  Hypothesis Hi2 : forall l p, ~ near l -> inverse_privacy_loss m (Fin l) = Ok p -> p = pk l.
  Lemma covers_limit d k y : NoDup (keys d) -> y <> NaN -> near (disc * IZR k) -> covers err d (dadd d k (at_end U y - at_end U MInf)) MInf y.
  Proof.
    intros ND Ny N. split; [apply NoDup_dadd, ND|]. intros eps. assert (M0 : xleb MInf y = true) by (destruct y; cbn; congruence).
    assert (C : cell U L true MInf y c) by (apply (cell_above U L HU HL pk HP); intros l' Hl; rewrite Hc by exact Hl; reflexivity).
    pose proof (cell_est U L HU HL pk HP true eps MInf y c M0 C) as E. cbn [est] in E. rewrite dsum_dadd by exact ND. unfold hgain. rewrite (Rmult_comm (IZR k)).
    pose proof (pos_shift eps c (disc * IZR k) err He (Hnear _ N)) as P. cbn [at_end] in *. pose proof (at_end_01 U y HU) as B.
    assert (at_end U y * pos (1 - exp (eps - c)) <= at_end U y * (pos (1 - exp (eps - disc * IZR k)) + err)) by (apply Rmult_le_compat_l; lra). nra.
  Qed.
  Lemma limit_covers upper ul : privacy_loss m (Fin upper) = Ok ul ->
    forall fuel down d d', NoDup (keys d) -> near (disc * IZR (down + 1)) -> disc * IZR (down + 1) <= c ->
    interval_masses fuel m true disc upper ul MInf down d = Ok d' -> covers err d d' MInf (Fin upper).
  Proof.
    intros Hu. induction fuel as [|fuel IH]; intros down d d' ND HN HB; cbn [interval_masses xltb]; [discriminate|].
    assert (STEP : disc * IZR down <= disc * IZR (down + 1)) by (apply Rmult_le_compat_l; [lra | apply IZR_le; lia]).
    rewrite round_half. destruct (xleb (Fin (disc * IZR down)) ul) eqn:Eu.
    - cbn [bind]. rewrite !Hmu. intros H. apply loop_ends in H; [|cbn [xltb]; apply Rltb_false; lra]. subst d'. apply covers_limit; [exact ND | discriminate | exact HN].
    - destruct (Hdec (disc * IZR down)) as [N|N].
      + rewrite (Hi1 _ N). cbn [bind]. rewrite !Hmu. intros H. apply IH in H; [|apply NoDup_dadd, ND | replace (down - 1 + 1)%Z with down by lia; exact N | replace (down - 1 + 1)%Z with down by lia; lra].
        destruct H as [N' H]. split; [exact N'|]. intros eps. specialize (H eps). rewrite dsum_dadd in H by exact ND. cbn [at_end] in H. lra.
      + destruct (inverse_privacy_loss m (Fin (disc * IZR down))) as [x'|] eqn:Ei; cbn [bind]; [|discriminate]. rewrite !Hmu.
        rewrite (Hi2 _ _ N Ei).
        assert (LT : xltb (pk (disc * IZR down)) (Fin upper) = true).
        { destruct (HT upper) as [a Ha]. rewrite Ha in Hu. injection Hu as <-. apply (Hstrict _ _ _ Ha). rewrite xltb_leb, Eu by discriminate. reflexivity. }
        intros H. replace err with (err + 0) by ring. eapply covers_join; [apply (covers_limit d (down + 1)); [exact ND | apply (pk_nan U L pk HP) | exact HN]|].
        apply (interval_covers upper ul (down - 1) Hu) with (7 := H); [| lia | apply NoDup_dadd, ND | apply xltb_le, LT | |].
        * intros z p Hz Hp. left. apply (Hi2 _ _) with (2 := Hp). intros Nz. apply N. apply (Hdown _ _ Nz).
          split; [apply Rmult_le_compat_l; [lra | apply IZR_le; lia] | lra].
        * replace (down - 1 + 1)%Z with down by lia. apply xleb_refl, (pk_nan U L pk HP).
        * apply peaks_down. apply Rmult_le_compat_l; [lra | apply IZR_le; lia].
  Qed.
  (** the whole loop: either no mass is negative, or the first is minus the mass below [lo] *)
  Lemma start_covers lo upper ul l1 : privacy_loss m (Fin lo) = Ok (Fin l1) -> l1 <= c -> privacy_loss m (Fin upper) = Ok ul -> lo <= upper ->
    forall fuel d d', NoDup (keys d) -> interval_masses fuel m true disc upper ul (Fin lo) (Rfloor (l1 / disc)) d = Ok d' ->
    covers 0 d d' (Fin lo) (Fin upper) \/
    (NoDup (keys d') /\ forall eps, part U L pk eps MInf (Fin upper) <=
       dsum d' (hgain disc eps) - dsum d (hgain disc eps) + at_end U (Fin lo) * hgain disc eps (Rfloor (l1 / disc) + 1) + err).
  Proof.
    intros Hlo Hl1 Hu Hlu fuel d d' ND. set (down := Rfloor (l1 / disc)).
    assert (El : l1 = disc * (l1 / disc)) by (field; lra). pose proof (Rfloor_spec (l1 / disc)) as FS. fold down in FS.
    assert (B1 : disc * IZR down <= l1) by (rewrite El at 1; apply Rmult_le_compat_l; lra).
    assert (B2 : l1 < disc * IZR (down + 1)) by (rewrite El at 1; apply Rmult_lt_compat_l; [lra|]; rewrite plus_IZR; lra).
    destruct (Hdec (disc * IZR down)) as [N|N].
    - destruct fuel as [|fuel]; cbn [interval_masses xltb]; (destruct (Rltb_spec lo upper) as [LT|LT]; [|intros [= <-]; left; replace upper with lo by lra; apply covers_same, ND]); [discriminate|].
      rewrite round_half. destruct (xleb (Fin (disc * IZR down)) ul) eqn:Eu.
      + cbn [bind]. rewrite !Hmu. intros H. apply loop_ends in H; [|cbn [xltb]; apply Rltb_false; lra]. subst d'. left.
        apply covers_cell; [exact ND | apply xleb_fin; lra | | lra]. apply cell_from. rewrite Rmult_comm. apply xltb_le, (Hstrict _ _ _ Hlo). cbn [xltb]. apply Rltb_true, B2.
      + rewrite (Hi1 _ N). cbn [bind]. rewrite !Hmu. intros H. right.
        apply (limit_covers upper ul Hu) in H; [|apply NoDup_dadd, ND | replace (down - 1 + 1)%Z with down by lia; exact N | replace (down - 1 + 1)%Z with down by lia; lra].
        destruct H as [N' H]. split; [exact N'|]. intros eps. specialize (H eps). rewrite dsum_dadd in H by exact ND. cbn [at_end] in *. lra.
    - intros H. left. apply (interval_covers upper ul down Hu) with (7 := H); [| lia | exact ND | apply xleb_fin, Hlu | |].
      + intros z p Hz Hp. left. apply (Hi2 _ _) with (2 := Hp). intros Nz. apply N. apply (Hdown _ _ Nz).
        split; [apply Rmult_le_compat_l; [lra | apply IZR_le; lia] | lra].
      + apply xltb_le, (Hstrict _ _ _ Hlo). cbn [xltb]. apply Rltb_true, B2.
      + apply (Hweak _ _ _ Hlo). apply xleb_fin, B1.
  Qed.
End Near.

(** ** A mechanism with continuous noise *)
Section Cont.
  Context (F : R -> R) (s : R) (pk : R -> xr) (cdf : xr -> R) (loss0 inv0 : adjacency -> xr -> res xr) (pt : adjacency -> R -> Prop) (Lf : R -> xr).
  Hypothesis HF : fits F s pk cdf inv0.
  Hypothesis HLo : loses s pk loss0 pt Lf.
  Context (q : R) (Hq : 0 < q <= 1) (adj : adjacency) (tail : res tail_pld) (bounds : res dots_bounds).
  Let m := additive s q adj cdf (loss0 adj) (inv0 adj) false tail bounds.
  Let U := upper_law adj F q s.
  Let L := lower_law adj F q s.
  Let p := peak adj q s pk.
  Hypothesis HB : forall x, pt adj x /\ exists a, base_loss s Lf adj x = Fin a.
  Hypothesis HI : forall l, near_limit adj q l -> inverse_privacy_loss m (Fin l) = Ok (match adj with ADD => MInf | REMOVE => PInf end).

  Lemma co_loss x : exists a, privacy_loss m (Fin x) = Ok (Fin a) /\ (adj = ADD -> q < 1 -> a < loss_limit ADD q).
  Proof.
    destruct (HB x) as (P & a & Ea). unfold m. cbn [additive privacy_loss]. rewrite (loss_ok _ _ _ _ _ HLo q Hq adj x P), Ea.
    destruct (sub_loss_fin adj q a) as [b Eb]. rewrite Eb. exists b. split; [reflexivity|]. intros EA Q. rewrite EA in Eb. cbn [sub_loss xneg sub_remove] in Eb. injection Eb as <-.
    cbn [loss_limit]. apply Ropp_lt_contravar, ln_increasing; [lra|]. pose proof (exp_pos (- a)). nra.
  Qed.
  Lemma co_total x : exists a, privacy_loss m (Fin x) = Ok (Fin a).
  Proof. destruct (co_loss x) as (a & H & _). exists a. exact H. Qed.
  Lemma co_weak x lx l : privacy_loss m (Fin x) = Ok lx -> xleb (Fin l) lx = true -> xleb (Fin x) (p l) = true.
  Proof.
    intros Hx Hl. destruct (possible_cases adj q l) as [HP|HP]; [apply (loss_galois _ _ _ _ _ HLo q Hq adj x lx l Hx HP), Hl|].
    destruct (not_possible F s pk cdf loss0 inv0 q Hq adj false tail bounds l HP) as [Q K]. destruct (co_loss x) as (a & Ha & Hb). rewrite Ha in Hx. injection Hx as <-. apply xleb_fin in Hl.
    unfold p. clear HI. destruct adj; cbn [peak].
    - specialize (Hb eq_refl Q). lra.
    - unfold peak_remove. rewrite Rltb_false; [reflexivity|]. assert (E : ~ 1 - q < exp l); [|lra]. intros E. apply HP. intros _. apply (exp_limit q REMOVE l Q). assumption.
  Qed.

  Context (disc : R) (Hd : 0 < disc).
  Definition tail_near (extra : R) (t : tail_pld) (lo hi : R) : Prop :=
    forall d0, tail_rounded true disc (tail_masses t) [] = Ok d0 ->
    NoDup (keys d0) /\ forall eps, exists v1 v2, est U L p true eps MInf (Fin lo) v1 /\ est U L p true eps (Fin hi) PInf v2 /\
      v1 + v2 = tail_infinity (tail_masses t) + dsum d0 (hgain disc eps) /\
      forall l1, privacy_loss m (Fin lo) = Ok (Fin l1) -> at_end U (Fin lo) * hgain disc eps (Rfloor (l1 / disc) + 1) <= v1 + extra.

  Lemma buckets_near fuel extra r : 0 <= extra ->
    (forall t, privacy_loss_tail m = Ok t -> lower_x_truncation t <= upper_x_truncation t /\ tail_near extra t (lower_x_truncation t) (upper_x_truncation t)) ->
    buckets_pmf fuel m true disc = Ok r ->
    forall eps delta, divergence_is U L eps delta -> delta <= pmf_delta r (Fin eps) + (grid_error q + extra).
  Proof.
    intros Hx HT. unfold buckets_pmf. destruct (privacy_loss_tail m) as [t|] eqn:Et; cbn [bind]; [|discriminate].
    destruct (HT t eq_refl) as [Hlu TN]. set (lo := lower_x_truncation t) in *. set (hi := upper_x_truncation t) in *.
    destruct (tail_rounded true disc (tail_masses t) []) as [d0|] eqn:E0; cbn [bind]; [|discriminate].
    destruct (TN d0 E0) as [ND EST]. change (is_discrete m) with false. cbn iota.
    destruct (co_loss lo) as (l1 & El & Bl). rewrite El. cbn [bind]. cbn [xdiv]. rewrite Reqb_false by lra. cbn [round_xr round_fn bind].
    destruct (privacy_loss m (Fin hi)) as [ul|] eqn:Eu; cbn [bind]; [|discriminate].
    destruct (interval_masses fuel m true disc hi ul (Fin lo) (Rfloor (l1 / disc)) d0) as [d1|] eqn:E1; cbn [bind]; [|discriminate]. intros HC eps delta HD.
    assert (ED : delta = part U L p eps MInf PInf).
    { rewrite (part_all U L p (in_HP _ _ _ _ _ HF q Hq adj)). apply (divergence_unique _ _ _ _ _ HD). apply (delta_at_peak _ _ _ _ _ HF q Hq adj eps). }
    pose proof (in_U _ _ _ _ _ HF q Hq adj) as iU. pose proof (in_L _ _ _ _ _ HF q Hq adj) as iL. pose proof (in_HP _ _ _ _ _ HF q Hq adj) as iP.
    pose proof (in_mu F s pk cdf loss0 inv0 HF q Hq adj false tail bounds) as iM.
    pose proof (in_strict _ _ _ _ _ _ _ _ HF HLo q Hq adj false tail bounds) as iS.
    pose proof (in_inverse _ _ _ _ loss0 _ HF q Hq adj false tail bounds) as iI.
    fold m U L p in iU, iL, iP, iM, iS, iI.
    pose proof (grid_error_nonneg q) as He.
    assert (ND1 : NoDup (keys d1)) by (apply (interval_nodup _ _ _ _ _ _ _ _ _ _ ND E1)).
    destruct (create_sums _ _ _ _ _ ND1 HC) as (DI & PS & IM & DC). rewrite delta_sum, PS, IM, DC by exact DI.
    destruct (EST eps) as (v1 & v2 & V1 & V2 & EV & BV). specialize (BV l1 El). cbn [est] in V1, V2.
    enough (K : covers U L p disc 0 d0 d1 (Fin lo) (Fin hi) \/ part U L p eps MInf (Fin hi) <=
       dsum d1 (hgain disc eps) - dsum d0 (hgain disc eps) + at_end U (Fin lo) * hgain disc eps (Rfloor (l1 / disc) + 1) + grid_error q).
    { rewrite ED. destruct K as [[_ K]|K]; [specialize (K eps)|]; unfold part in *; lra. }
    assert (El1 : l1 = disc * (l1 / disc)) by (field; lra). pose proof (Rfloor_spec (l1 / disc)) as FS. set (down := Rfloor (l1 / disc)) in *.
    assert (B1 : disc * IZR down <= l1) by (rewrite El1 at 1; apply Rmult_le_compat_l; lra).
    assert (B2 : l1 < disc * IZR (down + 1)) by (rewrite El1 at 1; apply Rmult_lt_compat_l; [lra|]; rewrite plus_IZR; lra).
    assert (K1 : adj = REMOVE \/ ~ q < 1 -> covers U L p disc 0 d0 d1 (Fin lo) (Fin hi)).
    { intros Hcase. apply (interval_covers U L iU iL p iP m disc Hd iM co_total iS co_weak hi ul down Eu) with (7 := E1); [| lia | exact ND | apply xleb_fin, Hlu | |].
      - intros z x Hz Hinv. destruct (near_dec q adj (disc * IZR z)) as [N|N]; [|left; apply iI; assumption].
        right. destruct Hcase as [EA|NQ]; [|destruct (NQ (proj1 N))]. rewrite (HI _ N) in Hinv. rewrite EA in Hinv. congruence.
      - apply xltb_le, (iS _ _ _ El). cbn [xltb]. apply Rltb_true, B2.
      - apply (co_weak _ _ _ El). apply xleb_fin, B1. }
    destruct (Rlt_dec q 1) as [Q|Q]; [|left; apply K1; right; exact Q].
    destruct (adjacency_cases adj) as [EA|EA]; [|left; apply K1; left; exact EA].
    destruct (start_covers U L iU iL p iP m disc Hd iM co_total iS co_weak (loss_limit ADD q) (grid_error q) (near_limit ADD q) He) with (lo := lo) (upper := hi) (ul := ul) (l1 := l1) (fuel := fuel) (d := d0) (d' := d1) as [K|[_ K]]; try assumption.
    - intros l Hl. unfold p. rewrite EA. cbn [peak]. unfold peak_add. rewrite Rltb_false; [reflexivity|].
      assert (E : ~ exp l * (1 - q) < 1); [|lra]. intros E. apply (exp_limit q ADD l Q) in E. lra.
    - intros l N. eapply Rle_trans; [|apply (near_distance ADD q l N)]. apply Rplus_le_compat_r, exp_le. rewrite <- Rabs_Ropp. eapply Rle_trans; [|apply Rle_abs]. lra.
    - intros l l' N B. apply (near_upward q l l' Q (proj1 Hq) N B).
    - intros l. apply near_dec.
    - intros l N. rewrite <- EA in N at 1. rewrite (HI _ N), EA. reflexivity.
    - intros l x N. rewrite <- EA in N at 1. intros Hinv. apply (iI l x Hinv N).
    - left. apply (Bl EA Q).
    - left. exact K.
    - right. apply K.
  Qed.

  (** the tails, as in ProofTails *)
  Lemma near_two extra t lo hi l1 l2 :
    tail_masses t = [(Fin l1, at_end U (Fin lo)); (Fin l2, 1 - at_end U (Fin hi))] ->
    (forall x, exists a, privacy_loss m (Fin x) = Ok (Fin a) /\ l2 <= a <= l1) ->
    privacy_loss m (Fin lo) = Ok (Fin l1) -> privacy_loss m (Fin hi) = Ok (Fin l2) ->
    at_end U (Fin lo) * (1 - exp (- disc)) <= extra -> tail_near extra t lo hi.
  Proof.
    intros ET HG H1 H2 HX d0 HT. rewrite ET in HT |- *. apply tail_two in HT; [|discriminate | discriminate].
    destruct HT as (k1 & k2 & R1 & R2 & ->). split; [repeat apply NoDup_dadd; constructor|]. intros eps.
    pose proof (in_U _ _ _ _ _ HF q Hq adj) as iU. pose proof (in_L _ _ _ _ _ HF q Hq adj) as iL. pose proof (in_HP _ _ _ _ _ HF q Hq adj) as iP.
    pose proof (in_strict _ _ _ _ _ _ _ _ HF HLo q Hq adj false tail bounds) as iS. fold m U L p in iU, iL, iP, iS.
    exists ((at_end U (Fin lo) - at_end U MInf) * hgain disc eps k1), ((at_end U PInf - at_end U (Fin hi)) * hgain disc eps k2).
    destruct (round_bound disc Hd _ _ _ R1) as (a1 & [= <-] & K1 & _).
    split; [|split; [|split]].
    - apply (cell_est U L iU iL p iP); [reflexivity|].
      apply (cell_all U L iU iL p iP m (fun _ => True) iS (fun x lx l Hx Hl _ => co_weak x lx l Hx Hl) true (fun _ => True) (IZR k1 * disc) (Fin lo) 0); try exact Logic.I; try discriminate.
      + intros x _. destruct (HG x) as (a & Ea & Ba). exists a. split; [assumption | lra].
      + intros; exact Logic.I.
      + intros r. exists (r + 1). split; [exact Logic.I | lra].
    - apply (cell_est U L iU iL p iP); [reflexivity|]. apply (cell_right U L iU iL p iP m disc Hd iS hi PInf (Fin l2)); assumption.
    - rewrite !dsum_dadd by (repeat apply NoDup_dadd; constructor). cbn. unfold hgain. lra.
    - intros l E1. rewrite H1 in E1. injection E1 as <-. cbn [xdiv] in R1. rewrite Reqb_false in R1 by lra. cbn [round_xr round_fn] in R1. injection R1 as <-.
      cbn [at_end] in *. assert (LE : (Rfloor (l1 / disc) <= Rceil (l1 / disc))%Z).
      { apply le_IZR. pose proof (Rfloor_spec (l1 / disc)). pose proof (Rceil_spec (l1 / disc)). lra. }
      pose proof (hgain_step disc eps _ _ Hd LE) as HS. destruct (proj1 iU lo) as [U0 _].
      apply (Rmult_le_compat_l (U lo)) in HS; [|exact U0]. lra.
  Qed.
  Lemma near_inf t lo hi l2 : tail_masses t = [(PInf, at_end U (Fin lo)); (Fin l2, 1 - at_end U (Fin hi))] ->
    privacy_loss m (Fin hi) = Ok (Fin l2) -> tail_near 0 t lo hi.
  Proof.
    intros ET H2 d0 HT. rewrite ET in HT |- *. change (tail_rounded true disc [(Fin l2, 1 - at_end U (Fin hi))] [] = Ok d0) in HT.
    apply tail_one in HT; [|discriminate]. destruct HT as (k & R & ->). split; [apply NoDup_dadd; constructor|]. intros eps.
    pose proof (in_U _ _ _ _ _ HF q Hq adj) as iU. pose proof (in_L _ _ _ _ _ HF q Hq adj) as iL. pose proof (in_HP _ _ _ _ _ HF q Hq adj) as iP.
    pose proof (in_strict _ _ _ _ _ _ _ _ HF HLo q Hq adj false tail bounds) as iS. fold m U L p in iU, iL, iP, iS.
    exists (at_end U (Fin lo)), ((at_end U PInf - at_end U (Fin hi)) * hgain disc eps k). split; [|split; [|split]].
    - apply (est_inf U L iU iL p iP). discriminate.
    - apply (cell_est U L iU iL p iP); [reflexivity|]. apply (cell_right U L iU iL p iP m disc Hd iS hi PInf (Fin l2)); assumption.
    - rewrite dsum_dadd by constructor. unfold tail_infinity. cbn. lra.
    - intros l _. cbn [at_end]. destruct (proj1 iU lo) as [U0 _]. unfold hgain. rewrite pos_max.
      assert (Rmax 0 (1 - exp (eps - IZR (Rfloor (l / disc) + 1) * disc)) <= 1); [|nra]. apply Rmax_lub; [lra|]. pose proof (exp_pos (eps - IZR (Rfloor (l / disc) + 1) * disc)). lra.
  Qed.
End Cont.

(** ** Laplace and Gaussian noise *)
Definition buckets_error (disc : R) : R := (1 - exp (- disc)) / 2.
Lemma buckets_error_pos disc : 0 < disc -> 0 <= buckets_error disc.
Proof. intros H. unfold buckets_error. assert (exp (- disc) < exp 0) by (apply exp_increasing; lra). rewrite exp_0 in *. lra. Qed.
Lemma laplace_buckets_near b s q adj disc fuel m r : 0 < disc ->
  LaplacePrivacyLoss b s q adj = Ok m -> buckets_pmf fuel m true disc = Ok r ->
  forall eps delta, divergence_is (upper_law adj (laplace_law b) q s) (lower_law adj (laplace_law b) q s) eps delta ->
  delta <= pmf_delta r (Fin eps) + (grid_error q + buckets_error disc).
Proof.
  intros Hd Hm. apply laplace_ok in Hm. destruct Hm as [(Hb & Hs & Hq) ->].
  pose proof (laplace_fits b s Hb Hs) as HF. pose proof (laplace_loses b s Hb Hs) as HL.
  set (Lf := fun x => Fin ((Rabs x - Rabs (x + s)) / b)) in *.
  assert (HB : forall x, True /\ exists a, base_loss s Lf adj x = Fin a) by (intros x; split; [exact Logic.I|]; destruct adj; eexists; reflexivity).
  assert (Hc : 0 < s / b) by (apply Rdiv_lt_0_compat; assumption).
  set (lo := match adj with ADD => 0 | REMOVE => - s end). set (hi := match adj with ADD => s | REMOVE => 0 end).
  destruct (extremes s _ _ _ Lf HL q Hq adj (s / b) Hc (fun _ => True)) with (lo := lo) (hi := hi) as (l1 & l2 & L1 & L2 & NE & B); try exact Logic.I.
  { intros x _. split; [exact Logic.I|]. destruct adj; cbn [base_loss]; unfold Lf; eexists; (split; [reflexivity|]).
    - pose proof (abs_diff (x - s) s Hs). split; apply (Rmult_le_reg_r b); try assumption; unfold Rdiv; field_simplify; lra.
    - pose proof (abs_diff x s Hs). split; apply (Rmult_le_reg_r b); try assumption; unfold Rdiv; field_simplify; lra. }
  { apply (g_lo b s). exact Hs. }
  { apply (g_hi b s); assumption. }
  apply (buckets_near _ _ _ _ _ _ _ _ HF HL q Hq adj (laplace_tail b s q adj) (laplace_bounds b s q adj) HB).
  - intros l N. apply (g_near b s q); try assumption. split; [apply Hq | apply N].
  - exact Hd.
  - apply buckets_error_pos, Hd.
  - intros t Ht. unfold additive in Ht. cbn [privacy_loss_tail] in Ht.
    assert (E : t = mkTail lo hi [(Fin l1, at_end (upper_law adj (laplace_law b) q s) (Fin lo)); (Fin l2, 1 - at_end (upper_law adj (laplace_law b) q s) (Fin hi))]).
    { unfold laplace_tail in Ht. assert (ET : (match adj with ADD => (0, s) | REMOVE => (- s, 0) end) = (lo, hi)) by (destruct adj; reflexivity).
      rewrite ET in Ht. unfold laplace_privacy_loss in Ht. rewrite L1, L2 in Ht. cbn [bind] in Ht. unfold dict2 in Ht. rewrite NE in Ht.
      unfold laplace_mu in Ht. rewrite !(upper_cdf _ _ _ _ _ HF q Hq adj) in Ht. injection Ht as <-. reflexivity. }
    rewrite E. cbn [lower_x_truncation upper_x_truncation]. split; [unfold lo, hi; destruct adj; lra|].
    apply (near_two _ _ _ _ _ _ _ _ HF HL q Hq adj (laplace_tail b s q adj) (laplace_bounds b s q adj) HB disc Hd _ _ lo hi l1 l2); [reflexivity | | exact L1 | exact L2|].
    + intros x. apply (B x Logic.I).
    + pose proof (buckets_error_pos disc Hd) as P. unfold buckets_error in *. cbn [at_end].
      assert (upper_law adj (laplace_law b) q s lo <= 1 / 2); [|nra].
      assert (H0 : laplace_law b 0 = 1 / 2) by (unfold laplace_law; rewrite Rltb_false by lra; replace (- 0 / b) with 0 by (field; lra); rewrite exp_0; lra).
      unfold lo. destruct adj; cbn [upper_law]; [lra|]. unfold remove_upper, sampled. replace (- s + s) with 0 by ring.
      assert (laplace_law b (- s) <= laplace_law b 0) by (apply (proj1 (proj2 (proj1 (fit_shape _ _ _ _ _ HF)))); lra). nra.
Qed.
Lemma gaussian_near sigma s q adj cdf l tail bounds : 0 < sigma -> 0 < s -> 0 < q -> near_limit adj q l ->
  inverse_privacy_loss (additive s q adj cdf (gaussian_loss0 sigma s adj) (gaussian_inverse0 sigma s adj) false tail bounds) (Fin l) = Ok (match adj with ADD => MInf | REMOVE => PInf end).
Proof.
  intros Hb Hs H0 N. pose proof (proj1 N) as Q. cbn [additive inverse_privacy_loss]. unfold a_inverse_privacy_loss. rewrite Reqb_false by lra.
  pose proof (proj2 (isclose_near q adj l ltac:(lra)) N) as I. pose proof (limit_val q adj ltac:(lra)) as LV.
  assert (0 < sigma * sigma) by nra.
  destruct adj; rewrite LV, I; unfold gaussian_inverse0; cbn [xmul]; unfold inf_times; rewrite Rltb_true by lra; cbn [xdiv xsub xneg xadd]; rewrite Rltb_false by lra; reflexivity.
Qed.
Lemma gaussian_buckets_near Phi ppf sigma s lb q adj disc fuel m r : normal_cdf Phi -> quantile_of Phi ppf -> 0 < disc ->
  GaussianPrivacyLoss Phi ppf sigma s true lb q adj = Ok m -> buckets_pmf fuel m true disc = Ok r ->
  forall eps delta, divergence_is (upper_law adj (gaussian_law Phi sigma) q s) (lower_law adj (gaussian_law Phi sigma) q s) eps delta ->
  delta <= pmf_delta r (Fin eps) + grid_error q.
Proof.
  intros HP HQ Hd Hm. apply gaussian_ok in Hm. destruct Hm as [(Hb & Hs & Hq & Hlb) ->].
  pose proof (gaussian_fits Phi sigma s HP Hb Hs) as HF. pose proof (gaussian_loses sigma s Hb Hs) as HL.
  set (Lf := fun x => Fin (s * (- (1/2) * s - x) / (sigma * sigma))) in *.
  assert (HB : forall x, True /\ exists a, base_loss s Lf adj x = Fin a) by (intros x; split; [exact Logic.I|]; destruct adj; eexists; reflexivity).
  assert (TOT : forall x, exists a, a_privacy_loss q adj (gaussian_loss0 sigma s adj) (Fin x) = Ok (Fin a)).
  { intros x. rewrite (loss_ok _ _ _ _ _ HL q Hq adj x Logic.I). destruct (HB x) as [_ [a ->]]. destruct (sub_loss_fin adj q a) as [c ->]. exists c. reflexivity. }
  assert (NEG : sigma * ppf (1/2 * exp lb) <= 0).
  { assert (exp lb <= 1) by (rewrite <- exp_0; apply exp_le; assumption). pose proof (exp_pos lb).
    assert (ppf (1/2 * exp lb) <= 0) by (apply (quantile_neg Phi); [assumption | assumption | lra]). nra. }
  set (l0 := sigma * ppf (1/2 * exp lb)) in *.
  set (lo := match adj with ADD => l0 | REMOVE => l0 - s end). set (hi := match adj with ADD => - l0 + s | REMOVE => - l0 end).
  assert (ET : (match adj with ADD => (l0, - l0 + s) | REMOVE => (l0 - s, - l0) end) = (lo, hi)) by (destruct adj; reflexivity).
  destruct (TOT hi) as [l2 L2]. intros H eps delta HD. replace (grid_error q) with (grid_error q + 0) by ring. revert H eps delta HD.
  apply (buckets_near _ _ _ _ _ _ _ _ HF HL q Hq adj (gaussian_tail Phi ppf sigma s true lb q adj) (gaussian_bounds Phi ppf sigma s true lb q adj) HB).
  - intros l N. apply gaussian_near; (assumption || apply Hq).
  - exact Hd.
  - apply Rle_refl.
  - intros t Ht. unfold additive in Ht. cbn [privacy_loss_tail] in Ht. unfold gaussian_tail in Ht. fold l0 in Ht. rewrite ET in Ht.
    unfold gaussian_privacy_loss, gaussian_mu in Ht. rewrite L2 in Ht. cbn [bind] in Ht. unfold dict2 in Ht. cbn [xeqb] in Ht.
    rewrite !(upper_cdf _ _ _ _ _ HF q Hq adj) in Ht. injection Ht as <-. cbn [lower_x_truncation upper_x_truncation]. split; [unfold lo, hi; destruct adj; lra|].
    apply (near_inf _ _ _ _ _ _ _ _ HF HL q Hq adj (gaussian_tail Phi ppf sigma s true lb q adj) (gaussian_bounds Phi ppf sigma s true lb q adj) disc Hd _ lo hi l2); [reflexivity | exact L2].
Qed.

(** ** Every constructor, on every grid *)
Lemma within_more e1 e2 D E : e1 <= e2 -> pld_within e1 D E -> pld_within e2 D E.
Proof. intros H (V & A & B). split; [exact V|]. split; intros eps S; [specialize (A eps S) | specialize (B eps S)]; lra. Qed.
Lemma buckets_within fuel disc q D F s : 0 < disc -> from_mechanism fuel true false disc q (Ok D) any_value F s ->
  forall E, noisy_query any_value F q s E -> pld_within (grid_error q + buckets_error disc) D E.
Proof.
  intros Hd HM. remember any_value as ok eqn:Eo. remember (Ok D) as r eqn:Er.
  assert (NI : integer_value <> any_value).
  { intros E. assert (any_value (1/2)) as A by exact I. rewrite <- E in A. destruct A as [z Hz].
    assert (0 < z)%Z by (apply lt_IZR; lra). assert (z < 1)%Z by (apply lt_IZR; lra). lia. }
  revert Er Eo. destruct HM as [b s' _ _ <- | Phi ppf sigma s' lb HP HQ _ _ _ <- | a s' F' HF Ha Hs <- | sigma s' bound F' HF Hb Hs <-]; intros HD Eo; try (destruct (NI Eo)).
  - apply (subsampled_near (LaplacePrivacyLoss b s' q) _ _ _ s' q _ (fun m => monotone_pmf fuel m true disc false) (fun adj m Hm => laplace_noise m b s' q adj Hm)); [|exact HD].
    intros adj m p Hm. unfold monotone_pmf. cbn [andb]. apply (laplace_buckets_near b s' q adj disc fuel m p Hd Hm).
  - intros E HE. apply (within_more (grid_error q)); [pose proof (buckets_error_pos disc Hd); lra|]. revert E HE.
    apply (subsampled_near (GaussianPrivacyLoss Phi ppf sigma s' true lb q) _ _ _ s' q _ (fun m => monotone_pmf fuel m true disc false) (fun adj m Hm => gaussian_noise m Phi ppf sigma s' true lb q adj HP Hm)); [|exact HD].
    intros adj m p Hm. unfold monotone_pmf. cbn [andb]. apply (gaussian_buckets_near Phi ppf sigma s' lb q adj disc fuel m p HP HQ Hd Hm).
Qed.
Lemma every_within fuel dots disc q D ok F s : 0 < disc -> from_mechanism fuel true dots disc q (Ok D) ok F s ->
  forall E, noisy_query ok F q s E -> pld_within (grid_error q + (if dots then 0 else buckets_error disc)) D E.
Proof.
  intros Hd HM E HE. pose proof (buckets_error_pos disc Hd) as P. destruct dots.
  - apply (within_more (grid_error q)); [lra|]. apply (constructed_within fuel true disc q D ok F s Hd HM (or_introl eq_refl)), HE.
  - assert (K : ok = any_value \/ ok = integer_value) by (destruct HM; auto). destruct K as [-> | ->].
    + apply (buckets_within fuel disc q D F s Hd HM E HE).
    + apply (within_more (grid_error q)); [lra|]. apply (constructed_within fuel false disc q D _ F s Hd HM (or_intror eq_refl)), HE.
Qed.
Lemma gaussian_every Phi ppf fuel sigma s disc lb q D : normal_cdf Phi -> quantile_of Phi ppf -> 0 < disc ->
  from_gaussian_mechanism Phi ppf fuel sigma s true disc lb q false = Ok D ->
  forall E, noisy_query any_value (fun x => Phi (x / sigma)) q s E -> pld_within (grid_error q) D E.
Proof.
  intros HP HQ Hd HD.
  apply (subsampled_near (GaussianPrivacyLoss Phi ppf sigma s true lb q) _ _ _ s q _ (fun m => monotone_pmf fuel m true disc false) (fun adj m Hm => gaussian_noise m Phi ppf sigma s true lb q adj HP Hm)); [|exact HD].
  intros adj m p Hm. unfold monotone_pmf. cbn [andb]. apply (gaussian_buckets_near Phi ppf sigma s lb q adj disc fuel m p HP HQ Hd Hm).
Qed.
(** the error of the buckets is attained *)
Lemma buckets_error_least : exists disc N D, 0 < disc < 1 / 10000 /\
  (forall fuel, (N <= fuel)%nat -> from_laplace_mechanism fuel 1 80 true disc (1/2) false = Ok D) /\
  (exists E, noisy_query any_value (laplace_law 1) (1/2) 80 E) /\
  forall E err, noisy_query any_value (laplace_law 1) (1/2) 80 E -> pld_within err D E -> buckets_error disc <= err.
Proof.
  destruct grid_negative_at as (disc & N & D & eps & Hd & HD & HE). exists disc, N, D. split; [exact Hd|]. split; [exact HD|]. split.
  - eexists. exists 0, 80, [1; 2]. split; [exact I|]. split; [exact I|]. split; [rewrite Rabs_right; lra|]. split; [|reflexivity]. repeat constructor; lra.
  - intros E err _ (_ & _ & B0).
    assert (B : ProbP (swap E) (fun _ => false) <= exp eps * ProbQ (swap E) (fun _ => false) + (pmf_delta (pmf_add D) (Fin eps) + err)) by exact (B0 eps (fun _ => false)). unfold buckets_error. rewrite HE in B.
    assert (K : forall (A : Type) (l : list A), filter (fun _ => false) l = []) by (intros A l; induction l; auto).
    unfold ProbP, ProbQ in B. rewrite !K in B. cbn [rsum] in B. lra.
Qed.
Lemma near_cases : exists Phi ppf N D1 D2, normal_cdf Phi /\ quantile_of Phi ppf /\ ~ grid_clear bad_disc (1/2) /\
  from_gaussian_mechanism Phi ppf N 3 4 true bad_disc (-50) (1/2) false = Ok D1 /\
  from_mechanism N true false bad_disc (1/2) (Ok D2) any_value (laplace_law 1) 80 /\
  (exists E, noisy_query any_value (fun x => Phi (x / 3)) (1/2) 4 E) /\ exists E, noisy_query any_value (laplace_law 1) (1/2) 80 E.
Proof.
  pose proof bad_disc_pos as Hd. destruct normal_exists as (Phi & ppf & HP & HQ).
  destruct (gaussian_constructs Phi ppf 3 4 true bad_disc (-50) (1/2) false) as (N1 & D1 & H1); try assumption; try lra; try discriminate.
  destruct (laplace_constructs 1 80 true bad_disc (1/2) false) as (N2 & D2 & H2); try lra; try discriminate.
  exists Phi, ppf, (N1 + N2)%nat, D1, D2. split; [exact HP|]. split; [exact HQ|]. split; [exact bad_not_clear|]. split; [apply H1; lia|].
  split; [apply by_laplace; [lra | lra | apply H2; lia]|].
  split; eexists; [exists 0, 3, [1; 2] | exists 0, 80, [1; 2]]; (split; [exact I|]; split; [exact I|]; split; [rewrite Rabs_right; lra|]; split; [|reflexivity]; repeat constructor; lra).
Qed.
