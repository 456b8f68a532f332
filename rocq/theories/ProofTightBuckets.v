(** How close the pessimistic estimates built from privacy buckets are: each is at most the exact
    divergence one interval to the left. *)
From Coq Require Import FunctionalExtensionality.
From Verif Require Import Base XReal Exn PyDict TypesAdjacency ModelPmf ModelPld ModelMake ModelMech SpecDP SpecPmf SpecPld SpecMech SpecClasses SpecMake SpecConstruct
  ProofDP ProofDict ProofPmf ProofPld ProofMake ProofDots ProofPeak ProofNoise ProofShape ProofShapeGauss ProofShapeInt ProofAdditive ProofClasses ProofMechTop
  ProofPldApi ProofDotsMech ProofBuckets ProofTails ProofTailClasses ProofConstruct ProofConstructTotal ProofTight ProofTightMech.
Local Arguments Rltb : simpl never.
Local Arguments Rleb : simpl never.
Local Arguments Reqb : simpl never.

(** the same masses, rounded up and rounded down *)
Section Rounding.
  Context (disc : R) (Hd : 0 < disc).
  Definition follows (d1 d1' d2 d2' : dict) : Prop := forall eps,
    dsum d1' (hgain disc eps) - dsum d1 (hgain disc eps) <= dsum d2' (hgain disc (eps - disc)) - dsum d2 (hgain disc (eps - disc)).
  Lemma hgain_shift eps k1 k2 : (k1 <= k2 + 1)%Z -> hgain disc eps k1 <= hgain disc (eps - disc) k2.
  Proof.
    intros H. apply IZR_le in H. rewrite plus_IZR in H. unfold hgain. apply pos_le.
    assert (exp (eps - disc - IZR k2 * disc) <= exp (eps - IZR k1 * disc)); [|lra]. apply exp_le.
    pose proof (Rmult_le_compat_r disc _ _ (Rlt_le _ _ Hd) H). lra.
  Qed.
  Lemma hgain_next eps k : hgain disc eps (k + 1) = hgain disc (eps - disc) k.
  Proof. unfold hgain. rewrite plus_IZR. do 3 f_equal. ring. Qed.
  Lemma follows_step d1 d1' d2 d2' k1 k2 v : NoDup (keys d1) -> NoDup (keys d2) -> (k1 <= k2 + 1)%Z -> 0 <= v ->
    follows (dadd d1 k1 v) d1' (dadd d2 k2 v) d2' -> follows d1 d1' d2 d2'.
  Proof.
    intros N1 N2 HK Hv H eps. specialize (H eps). rewrite !dsum_dadd in H by assumption.
    pose proof (Rmult_le_compat_l v _ _ Hv (hgain_shift eps k1 k2 HK)). lra.
  Qed.
  Lemma follows_next d1 d1' d2 d2' k v : NoDup (keys d1) -> NoDup (keys d2) ->
    follows (dadd d1 (k + 1) v) d1' (dadd d2 k v) d2' -> follows d1 d1' d2 d2'.
  Proof. intros N1 N2 H eps. specialize (H eps). rewrite !dsum_dadd, hgain_next in H by assumption. lra. Qed.
  Lemma round_both x k1 : round_xr true x = Ok k1 -> exists k2, round_xr false x = Ok k2 /\ (k1 <= k2 + 1)%Z.
  Proof.
    destruct x as [a| | |]; cbn [round_xr]; try discriminate. intros [= <-]. exists (Rfloor a). split; [reflexivity|].
    destruct (ceil_cases a) as [E|E]; rewrite E; lia.
  Qed.
  Lemma tail_both l : (forall x v, In (x, v) l -> 0 <= v) -> forall d1 d1' d2, NoDup (keys d1) -> NoDup (keys d2) -> tail_rounded true disc l d1 = Ok d1' ->
    exists d2', tail_rounded false disc l d2 = Ok d2' /\ NoDup (keys d1') /\ follows d1 d1' d2 d2'.
  Proof.
    induction l as [|[x v] l IH]; intros HV d1 d1' d2 N1 N2 H; cbn [tail_rounded] in *.
    - injection H as <-. exists d2. split; [reflexivity|]. split; [assumption|]. intros eps. lra.
    - assert (HV' : forall x v, In (x, v) l -> 0 <= v) by (intros y w Hy; apply (HV y); right; assumption).
      destruct (xeqb x PInf); [apply (IH HV' d1 d1' d2 N1 N2 H)|].
      apply bind_Ok in H. destruct H as (k1 & E1 & H). destruct (round_both _ _ E1) as (k2 & E2 & HK). rewrite E2. cbn [bind].
      destruct (IH HV' (dadd d1 k1 v) d1' (dadd d2 k2 v) (NoDup_dadd _ _ _ N1) (NoDup_dadd _ _ _ N2) H) as (d2' & T & ND & FO).
      exists d2'. split; [exact T|]. split; [exact ND|]. apply (follows_step d1 d1' d2 d2' k1 k2 v N1 N2 HK); [apply (HV x); left; reflexivity | exact FO].
  Qed.
  Context (m : monotone).
  Lemma points_both n : (forall x, mu_upper_cdf m (Fin (IZR (x - 1))) <= mu_upper_cdf m (Fin (IZR x))) ->
    forall x d1 d1' d2, NoDup (keys d1) -> NoDup (keys d2) -> point_masses m true disc x n d1 = Ok d1' ->
    exists d2', point_masses m false disc x n d2 = Ok d2' /\ NoDup (keys d1') /\ follows d1 d1' d2 d2'.
  Proof.
    intros HM. induction n as [|n IH]; intros x d1 d1' d2 N1 N2 H; cbn [point_masses] in *.
    - injection H as <-. exists d2. split; [reflexivity|]. split; [assumption|]. intros eps. lra.
    - apply bind_Ok in H. destruct H as (lx & El & H). rewrite El. cbn [bind].
      apply bind_Ok in H. destruct H as (k1 & E1 & H). destruct (round_both _ _ E1) as (k2 & E2 & HK). rewrite E2. cbn [bind].
      destruct (IH (x + 1)%Z _ d1' (dadd d2 k2 (mu_upper_cdf m (Fin (IZR x)) - mu_upper_cdf m (Fin (IZR (x - 1))))) (NoDup_dadd _ _ _ N1) (NoDup_dadd _ _ _ N2) H) as (d2' & T & ND & FO).
      exists d2'. split; [exact T|]. split; [exact ND|]. eapply follows_step; [exact N1 | exact N2 | exact HK | | exact FO]. pose proof (HM x). lra.
  Qed.
  Lemma intervals_both upper ul fuel : forall x down d1 d1' d2, NoDup (keys d1) -> NoDup (keys d2) ->
    interval_masses fuel m true disc upper ul x down d1 = Ok d1' ->
    exists d2', interval_masses fuel m false disc upper ul x down d2 = Ok d2' /\ NoDup (keys d1') /\ follows d1 d1' d2 d2'.
  Proof.
    induction fuel as [|fuel IH]; intros x down d1 d1' d2 N1 N2; cbn [interval_masses]; destruct (xltb x (Fin upper)); try discriminate.
    1, 3: intros [= <-]; exists d2; split; [reflexivity|]; split; [assumption|]; intros eps; lra.
    intros H. apply bind_Ok in H. destruct H as (x' & E & H). rewrite E. cbn [bind]. rewrite round_half in *.
    destruct (IH x' (down - 1)%Z _ d1' (dadd d2 down (mu_upper_cdf m x' - mu_upper_cdf m x)) (NoDup_dadd _ _ _ N1) (NoDup_dadd _ _ _ N2) H) as (d2' & T & ND & FO).
    exists d2'. split; [exact T|]. split; [exact ND|]. eapply follows_next; [exact N1 | exact N2 | exact FO].
  Qed.
End Rounding.

(** the estimate is at most [r] above the divergence one interval to the left *)
Definition shifted (r disc : R) (p : pmf) (U L : R -> R) : Prop :=
  forall eps d, divergence_is U L (eps - disc) d -> pmf_delta p (Fin eps) <= d + r.

Section Shift.
  Context (F : R -> R) (s : R) (pk : R -> xr) (cdf : xr -> R) (loss0 inv0 : adjacency -> xr -> res xr) (pt : adjacency -> R -> Prop) (Lf : R -> xr).
  Hypothesis HF : fits F s pk cdf inv0.
  Hypothesis HLo : loses s pk loss0 pt Lf.
  Context (q : R) (Hq : 0 < q <= 1) (adj : adjacency) (discrete : bool) (tail : res tail_pld) (bounds : res dots_bounds).
  Let m := additive s q adj cdf (loss0 adj) (inv0 adj) discrete tail bounds.
  Let U := upper_law adj F q s.
  Let L := lower_law adj F q s.
  Let p := peak adj q s pk.
  Let HU := in_U _ _ _ _ _ HF q Hq adj.
  Let HL := in_L _ _ _ _ _ HF q Hq adj.
  Let HP := in_HP _ _ _ _ _ HF q Hq adj.
  Context (disc : R) (Hd : 0 < disc) (HN : forall z, ~ near_limit adj q (IZR z * disc)).
  Context (r : R).

  (** what is counted for the two tails *)
  Definition tail_slack (t : tail_pld) (lo hi : R) : Prop :=
    forall d0, tail_rounded true disc (tail_masses t) [] = Ok d0 ->
    0 <= tail_infinity (tail_masses t) /\ fine d0 /\
    forall eps, exists v1 v2, est U L p false (eps - disc) MInf (Fin lo) v1 /\ est U L p false (eps - disc) (Fin hi) PInf v2 /\
      tail_infinity (tail_masses t) + dsum d0 (hgain disc eps) <= v1 + v2 + r.
  Definition slack_ok : Prop := forall t, privacy_loss_tail m = Ok t ->
    if discrete then
      exists zl zu, lower_x_truncation t = IZR zl /\ upper_x_truncation t = IZR zu /\ (zl - 1 <= zu)%Z /\
        (forall l a, p l = Fin a -> a = IZR (Rfloor a)) /\ tail_slack t (IZR (zl - 1)) (IZR zu)
    else
      lower_x_truncation t <= upper_x_truncation t /\ (forall x, exists a, privacy_loss m (Fin x) = Ok (Fin a)) /\
      tail_slack t (lower_x_truncation t) (upper_x_truncation t).

  Lemma buckets_shifted fuel pm : slack_ok -> buckets_pmf fuel m true disc = Ok pm -> shifted r disc pm U L.
  Proof.
    intros HT. unfold buckets_pmf. destruct (privacy_loss_tail m) as [t|] eqn:Et; cbn [bind]; [|discriminate].
    specialize (HT t Et). destruct (tail_rounded true disc (tail_masses t) []) as [d0|] eqn:E0; cbn [bind]; [|discriminate].
    pose proof (in_mu _ _ _ _ (loss0) _ HF q Hq adj discrete tail bounds) as Hmu. fold m in Hmu. fold U in Hmu.
    pose proof (in_loss_nan s pk cdf loss0 inv0 pt Lf HLo q Hq adj discrete tail bounds) as Hln.
    pose proof (in_strict _ _ _ _ _ _ _ _ HF HLo q Hq adj discrete tail bounds) as Hst.
    pose proof (in_weak F s pk cdf loss0 inv0 pt Lf HLo q Hq adj discrete tail bounds) as Hwe.
    pose proof (in_inverse _ _ _ _ loss0 _ HF q Hq adj discrete tail bounds) as Hin.
    assert (FIN : forall d1 d1' lo hi, tail_slack t lo hi -> fine d1 -> follows disc d0 d1 [] d1' -> gains U L p disc false [] d1' (Fin lo) (Fin hi) ->
      create_pmf d1 disc (tail_infinity (tail_masses t)) true = Ok pm -> shifted r disc pm U L).
    { intros d1 d1' lo hi TF [ND NN] FO G HC eps delta HD. destruct (TF d0 E0) as (I0 & F0 & EST).
      destruct (create_pmf_ok _ _ _ _ _ Hd I0 ND NN HC) as (W & PS & IM & DI & PE).
      assert (delta = part U L p (eps - disc) MInf PInf) as ->.
      { rewrite (part_all U L p HP). apply (divergence_unique _ _ _ _ _ HD). apply (delta_at_peak _ _ _ _ _ HF q Hq adj (eps - disc)). }
      destruct (EST eps) as (v1 & v2 & B1 & B2 & EV). destruct G as [_ G]. specialize (G (eps - disc)). specialize (FO eps).
      pose proof (est_join U L p _ _ _ _ _ _ _ B1 (est_join U L p _ _ _ _ _ _ _ G B2)) as B. cbn [est] in B.
      rewrite pmf_delta_psum by assumption. unfold ptest. rewrite PS, IM, DI. lra. }
    change (is_discrete m) with discrete. case_eq discrete; intros Edisc; rewrite Edisc in HT.
    - destruct HT as (zl & zu & -> & -> & Hz & HI & TF). rewrite ceil_Z, Rfloor_IZR.
      destruct (point_masses m true disc zl _ d0) as [d1|] eqn:E1; cbn [bind]; [|discriminate]. intros HC.
      pose proof (proj1 (proj2 (TF d0 E0))) as F0.
      destruct (points_both disc Hd m _ ltac:(intros x; rewrite !Hmu; apply (at_end_mono U HU), xleb_fin, IZR_le; lia) zl d0 d1 [] (proj1 F0) ltac:(constructor) E1) as (d1' & E1' & _ & FO).
      pose proof (point_masses_gains U L HU HL p HP m disc Hd (fun l => ~ near_limit adj q l) Hmu Hst Hwe false _ (fun _ => HN) zl [] d1' HI fine_nil E1') as G.
      pose proof (point_masses_gains U L HU HL p HP m disc Hd (fun l => ~ near_limit adj q l) Hmu Hst Hwe true _ (fun _ => HN) zl d0 d1 HI F0 E1) as G1.
      replace (zl + Z.of_nat (Z.to_nat (zu - zl + 1)) - 1)%Z with zu in G by lia.
      apply (FIN d1 d1' _ _ TF (proj1 G1) FO G HC).
    - destruct HT as (Hlu & HTot & TF). set (lo := lower_x_truncation t) in *. set (hi := upper_x_truncation t) in *.
      destruct (privacy_loss m (Fin lo)) as [l1|] eqn:El; cbn [bind]; [|discriminate].
      destruct (round_xr false (xdiv l1 (Fin disc))) as [down|] eqn:Er; cbn [bind]; [|discriminate].
      destruct (privacy_loss m (Fin hi)) as [ul|] eqn:Eu; cbn [bind]; [|discriminate].
      destruct (interval_masses fuel m true disc hi ul (Fin lo) down d0) as [d1|] eqn:E1; cbn [bind]; [|discriminate]. intros HC.
      pose proof (proj1 (proj2 (TF d0 E0))) as F0.
      destruct (intervals_both disc m hi ul fuel (Fin lo) down d0 d1 [] (proj1 F0) ltac:(constructor) E1) as (d1' & E1' & _ & FO).
      destruct (round_bound disc Hd _ _ _ Er) as (a & -> & B1 & B2). specialize (B2 eq_refl).
      assert (K1 : xleb (p (disc * IZR (down + 1))) (Fin lo) = true).
      { apply xltb_le. apply (Hst _ _ _ El). cbn. apply Rltb_true. rewrite Rmult_comm. assumption. }
      assert (K2 : xleb (Fin lo) (p (disc * IZR down)) = true).
      { apply (Hwe _ _ _ El); [apply xleb_fin; rewrite Rmult_comm; assumption|]. rewrite Rmult_comm. apply HN. }
      assert (K0 : xleb (Fin lo) (Fin hi) = true) by (apply xleb_fin; assumption).
      pose proof (interval_masses_gains U L HU HL p HP m disc Hd (fun l => ~ near_limit adj q l) Hmu Hln Hst Hwe Hin
               false hi ul HN HTot Eu fuel (Fin lo) down [] d1' fine_nil K0 K1 K2 E1') as G.
      pose proof (interval_masses_gains U L HU HL p HP m disc Hd (fun l => ~ near_limit adj q l) Hmu Hln Hst Hwe Hin
               true hi ul HN HTot Eu fuel (Fin lo) down d0 d1 F0 K0 K1 K2 E1) as G1.
      apply (FIN d1 d1' _ _ TF (proj1 G1) FO G HC).
  Qed.

  (** the tails that are the same for both kinds of estimates *)
  Lemma same_tail t lo hi : 0 <= r -> (forall x v, In (x, v) (tail_masses t) -> 0 <= v) ->
    tail_fits F s pk q adj disc true t lo hi -> tail_fits F s pk q adj disc false t lo hi -> tail_slack t lo hi.
  Proof.
    intros Hr HV T1 T2 d0 E0. destruct (T1 d0 E0) as (F0 & I0 & _). split; [apply I0|]. split; [exact F0|]. intros eps.
    destruct (tail_both disc Hd (tail_masses t) HV [] d0 [] ltac:(constructor) ltac:(constructor) E0) as (d0' & E0' & _ & FO).
    destruct (T2 d0' E0') as (_ & _ & EST). destruct (EST (eps - disc)) as (v1 & v2 & B1 & B2 & EV). exists v1, v2.
    split; [exact B1|]. split; [exact B2|]. specialize (FO eps).
    assert (Z0 : forall e, dsum [] (hgain disc e) = 0) by reflexivity. rewrite !Z0 in FO. lra.
  Qed.
End Shift.

(** ** The four classes *)
Lemma end_range U x : is_cdf U -> 0 <= at_end U x <= 1.
Proof. intros (H & _). destruct x; cbn [at_end]; try lra. apply H. Qed.

Lemma laplace_shifted b s q adj disc fuel m pm : 0 < disc -> (forall z, ~ near_limit adj q (IZR z * disc)) ->
  LaplacePrivacyLoss b s q adj = Ok m -> buckets_pmf fuel m true disc = Ok pm ->
  shifted 0 disc pm (upper_law adj (laplace_law b) q s) (lower_law adj (laplace_law b) q s).
Proof.
  intros Hd HN Hm. apply laplace_ok in Hm. destruct Hm as [(Hb & Hs & Hq) ->].
  pose proof (laplace_fits b s Hb Hs) as HF. pose proof (laplace_loses b s Hb Hs) as HL.
  apply (buckets_shifted _ _ _ _ _ _ _ _ HF HL q Hq adj false (laplace_tail b s q adj) (laplace_bounds b s q adj) disc Hd HN 0 fuel pm).
  pose proof (laplace_tail_ok b s q adj (laplace_bounds b s q adj) disc true Hb Hs Hq Hd HN) as T1.
  pose proof (laplace_tail_ok b s q adj (laplace_bounds b s q adj) disc false Hb Hs Hq Hd HN) as T2.
  intros t Ht. destruct (T1 t Ht) as (A & B & C1). destruct (T2 t Ht) as (_ & _ & C2). split; [exact A|]. split; [exact B|].
  apply (same_tail _ _ _ q adj disc Hd 0); try assumption; [lra|].
  intros x v Hv. unfold additive in Ht. cbn [privacy_loss_tail] in Ht. unfold laplace_tail in Ht.
  destruct (match adj with ADD => _ | REMOVE => _ end) as [lo hi]. apply bind_Ok in Ht. destruct Ht as (l1 & _ & Ht). apply bind_Ok in Ht. destruct Ht as (l2 & _ & Ht).
  injection Ht as <-. cbn [tail_masses] in Hv. unfold laplace_mu in Hv. rewrite !(upper_cdf _ _ _ _ _ HF q Hq adj) in Hv.
  pose proof (end_range _ (Fin lo) (in_U _ _ _ _ _ HF q Hq adj)) as R1. pose proof (end_range _ (Fin hi) (in_U _ _ _ _ _ HF q Hq adj)) as R2.
  cbn [at_end] in R1, R2. unfold dict2 in Hv. destruct (xeqb l1 l2); cbn [In] in Hv; repeat (destruct Hv as [Hv|Hv]; [injection Hv as _ <-; lra|]); destruct Hv.
Qed.

Lemma dlaplace_shifted a s q adj disc fuel m pm : 0 < disc -> (forall z, ~ near_limit adj q (IZR z * disc)) ->
  DiscreteLaplacePrivacyLoss a s q adj = Ok m -> buckets_pmf fuel m true disc = Ok pm ->
  shifted 0 disc pm (upper_law adj (dlaplace_law a) q (IZR s)) (lower_law adj (dlaplace_law a) q (IZR s)).
Proof.
  intros Hd HN Hm. apply dlaplace_ok in Hm. destruct Hm as [(Ha & Hs & Hq) ->].
  pose proof (dlaplace_fits a s Ha Hs) as HF. pose proof (dlaplace_loses a s Ha Hs) as HL.
  apply (buckets_shifted _ _ _ _ _ _ _ _ HF HL q Hq adj true (dlaplace_tail a s q adj) (dlaplace_bounds s adj) disc Hd HN 0 fuel pm).
  pose proof (dlaplace_tail_ok a s q adj (dlaplace_bounds s adj) disc true Ha Hs Hq Hd (fun _ => HN)) as T1.
  pose proof (dlaplace_tail_ok a s q adj (dlaplace_bounds s adj) disc false Ha Hs Hq Hd (fun _ => HN)) as T2.
  intros t Ht. destruct (T1 t Ht) as (zl & zu & A & B & C & D & T1'). destruct (T2 t Ht) as (zl' & zu' & A' & B' & _ & _ & T2').
  assert (zl' = zl) as -> by (apply eq_IZR; rewrite <- A, <- A'; reflexivity). assert (zu' = zu) as -> by (apply eq_IZR; rewrite <- B, <- B'; reflexivity).
  exists zl, zu. split; [exact A|]. split; [exact B|]. split; [exact C|]. split; [exact D|].
  apply (same_tail _ _ _ q adj disc Hd 0); try assumption; [lra|].
  intros x v Hv. unfold additive in Ht. cbn [privacy_loss_tail] in Ht. unfold dlaplace_tail in Ht.
  destruct (match adj with ADD => _ | REMOVE => _ end) as [lo hi]. apply bind_Ok in Ht. destruct Ht as (l1 & _ & Ht). apply bind_Ok in Ht. destruct Ht as (l2 & _ & Ht).
  injection Ht as <-. cbn [tail_masses] in Hv. unfold dlaplace_mu in Hv. rewrite !(upper_cdf _ _ _ _ _ HF q Hq adj) in Hv.
  pose proof (fun x => end_range _ (Fin x) (in_U _ _ _ _ _ HF q Hq adj)) as RR. cbn [at_end] in RR.
  pose proof (RR (IZR (lo - 1))) as R1. pose proof (RR (IZR hi)) as R2.
  unfold dict2 in Hv. destruct (xeqb l1 l2); cbn [In] in Hv; repeat (destruct Hv as [Hv|Hv]; [injection Hv as _ <-; lra|]); destruct Hv.
Qed.

Lemma dgauss_shifted sigma s T q adj disc fuel m pm : 0 < disc -> (forall z, ~ near_limit adj q (IZR z * disc)) ->
  DiscreteGaussianPrivacyLoss sigma s T q adj = Ok m -> buckets_pmf fuel m true disc = Ok pm ->
  shifted 0 disc pm (upper_law adj (dgaussian_law sigma T) q (IZR s)) (lower_law adj (dgaussian_law sigma T) q (IZR s)).
Proof.
  intros Hd HN Hm. apply dgauss_ok in Hm. destruct Hm as [(Hb & Hs & HT & Hq) ->].
  pose proof (dgauss_fits sigma s T Hb Hs ltac:(lia)) as HF. pose proof (dgauss_loses sigma s T Hb Hs HT) as HL.
  apply (buckets_shifted _ _ _ _ _ _ _ _ HF HL q Hq adj true (dgauss_tail sigma s T q adj) (dgauss_bounds s T q adj) disc Hd HN 0 fuel pm).
  pose proof (dgauss_tail_ok sigma s T q adj (dgauss_bounds s T q adj) disc true Hb Hs HT Hq Hd) as T1.
  pose proof (dgauss_tail_ok sigma s T q adj (dgauss_bounds s T q adj) disc false Hb Hs HT Hq Hd) as T2.
  intros t Ht. destruct (T1 t Ht) as (zl & zu & A & B & C & D & T1'). destruct (T2 t Ht) as (zl' & zu' & A' & B' & _ & _ & T2').
  assert (zl' = zl) as -> by (apply eq_IZR; rewrite <- A, <- A'; reflexivity). assert (zu' = zu) as -> by (apply eq_IZR; rewrite <- B, <- B'; reflexivity).
  exists zl, zu. split; [exact A|]. split; [exact B|]. split; [exact C|]. split; [exact D|].
  apply (same_tail _ _ _ q adj disc Hd 0); try assumption; [lra|].
  intros x v Hv. unfold additive in Ht. cbn [privacy_loss_tail] in Ht. unfold dgauss_tail in Ht.
  destruct (dgauss_truncation s T q adj) as [lo hi]. injection Ht as <-. cbn [tail_masses] in Hv. unfold dgauss_mu in Hv. rewrite !(upper_cdf _ _ _ _ _ HF q Hq adj) in Hv.
  destruct Hv as [Hv|[]]. injection Hv as _ <-. apply (end_range _ (Fin (IZR (lo - 1))) (in_U _ _ _ _ _ HF q Hq adj)).
Qed.

Lemma gaussian_shifted Phi ppf sigma s lb q adj disc fuel m pm : normal_cdf Phi -> quantile_of Phi ppf -> 0 < disc -> (forall z, ~ near_limit adj q (IZR z * disc)) ->
  GaussianPrivacyLoss Phi ppf sigma s true lb q adj = Ok m -> buckets_pmf fuel m true disc = Ok pm ->
  shifted (exp lb) disc pm (upper_law adj (gaussian_law Phi sigma) q s) (lower_law adj (gaussian_law Phi sigma) q s).
Proof.
  intros HP HQ Hd HN Hm. apply gaussian_ok in Hm. destruct Hm as [(Hb & Hs & Hq & Hlb) ->].
  pose proof (gaussian_fits Phi sigma s HP Hb Hs) as HF. pose proof (gaussian_loses sigma s Hb Hs) as HL.
  set (tl := gaussian_tail Phi ppf sigma s true lb q adj). set (bd := gaussian_bounds Phi ppf sigma s true lb q adj).
  apply (buckets_shifted _ _ _ _ _ _ _ _ HF HL q Hq adj false tl bd disc Hd HN (exp lb) fuel pm).
  pose proof (gaussian_tail_ok Phi ppf sigma s q adj bd lb disc true HP HQ Hb Hs Hlb Hq Hd HN) as T1. fold tl in T1.
  intros t Ht. destruct (T1 t Ht) as (A & B & C). split; [exact A|]. split; [exact B|]. clear T1.
  intros d0 E0. destruct (C d0 E0) as (F0 & I0 & _). clear C. split; [apply I0|]. split; [exact F0|]. intros eps.
  pose proof (in_U _ _ _ _ _ HF q Hq adj) as HU. pose proof (in_L _ _ _ _ _ HF q Hq adj) as HLw. pose proof (in_HP _ _ _ _ _ HF q Hq adj) as HPk.
  exists 0, 0. split; [apply (est_none _ _ HU HLw _ HPk); [reflexivity | exact Logic.I]|]. split; [apply (est_none _ _ HU HLw _ HPk); [reflexivity | exact Logic.I]|].
  assert (XB : 0 < exp lb <= 1) by (split; [apply exp_pos | apply Rle_trans with (exp 0); [apply exp_le; assumption | rewrite exp_0; lra]]).
  unfold additive in Ht. cbn [privacy_loss_tail] in Ht. unfold tl, gaussian_tail in Ht. set (l0 := sigma * ppf (1/2 * exp lb)) in *.
  assert (FL : gaussian_law Phi sigma l0 = exp lb / 2).
  { unfold gaussian_law, l0. replace (sigma * ppf (1/2 * exp lb) / sigma) with (ppf (1/2 * exp lb)) by (field; lra). rewrite HQ by lra. lra. }
  assert (FR : gaussian_law Phi sigma (- l0) = 1 - exp lb / 2).
  { unfold gaussian_law in *. replace (- l0 / sigma) with (- (l0 / sigma)) by (field; lra). rewrite (normal_mirror Phi HP), Ropp_involutive, FL. reflexivity. }
  assert (MO : forall x y, x <= y -> gaussian_law Phi sigma x <= gaussian_law Phi sigma y).
  { pose proof (in_U _ _ _ _ _ HF q Hq ADD) as (_ & M & _). exact M. }
  set (lo := match adj with ADD => l0 | REMOVE => l0 - s end). set (hi := match adj with ADD => - l0 + s | REMOVE => - l0 end).
  assert (ET : (match adj with ADD => (l0, - l0 + s) | REMOVE => (l0 - s, - l0) end) = (lo, hi)) by (destruct adj; reflexivity).
  rewrite ET in Ht. apply bind_Ok in Ht. destruct Ht as (l2 & L2 & Ht). unfold gaussian_mu in Ht. rewrite !(upper_cdf _ _ _ _ _ HF q Hq adj) in Ht.
  assert (UL : at_end (upper_law adj (gaussian_law Phi sigma) q s) (Fin lo) <= exp lb / 2).
  { cbn [at_end]. unfold lo. destruct adj; cbn [upper_law]; [lra|]. unfold remove_upper, sampled.
    pose proof (MO (l0 - s) l0 ltac:(lra)) as M. replace (l0 - s + s) with l0 by ring. rewrite FL in *.
    pose proof (Rmult_le_compat_l (1 - q) _ _ ltac:(lra) M). lra. }
  assert (UH : 1 - exp lb / 2 <= at_end (upper_law adj (gaussian_law Phi sigma) q s) (Fin hi)).
  { cbn [at_end]. unfold hi. destruct adj; cbn [upper_law].
    - pose proof (MO (- l0) (- l0 + s) ltac:(lra)). lra.
    - unfold remove_upper, sampled. pose proof (MO (- l0) (- l0 + s) ltac:(lra)) as M. rewrite FR in *.
      pose proof (Rmult_le_compat_l q _ _ (Rlt_le _ _ (proj1 Hq)) M). lra. }
  pose proof (end_range _ (Fin hi) HU) as R2.
  assert (N2 : l2 <> PInf).
  { destruct (B hi) as [a Ea]. unfold additive in Ea. cbn [privacy_loss] in Ea. unfold gaussian_privacy_loss in L2. rewrite Ea in L2. injection L2 as <-. discriminate. }
  assert (X2 : xeqb PInf l2 = false) by (destruct l2; cbn; congruence).
  injection Ht as <-. cbn [tail_masses] in *. unfold dict2 in *. rewrite X2 in *.
  change (tail_rounded true disc [(l2, 1 - at_end (upper_law adj (gaussian_law Phi sigma) q s) (Fin hi))] [] = Ok d0) in E0.
  apply tail_one in E0; [|assumption]. destruct E0 as (k & R & ->). rewrite dsum_dadd by constructor.
  assert (HG : 0 <= hgain disc eps k <= 1).
  { unfold hgain. rewrite pos_max. pose proof (exp_pos (eps - IZR k * disc)). split; [apply Rmax_l | apply Rmax_lub; lra]. }
  match goal with |- ?I + _ <= _ => assert (EI : I = at_end (upper_law adj (gaussian_law Phi sigma) q s) (Fin lo)) by (unfold tail_infinity; destruct l2; cbn; congruence); rewrite EI end.
  change (dsum [] (hgain disc eps)) with 0. set (v := 1 - at_end (upper_law adj (gaussian_law Phi sigma) q s) (Fin hi)) in *.
  assert (v * hgain disc eps k <= v * 1) by (apply Rmult_le_compat_l; [unfold v|]; lra). unfold v in *. lra.
Qed.

(** ** Distributions for both directions *)
Lemma buckets_pld fuel (cls : adjacency -> res monotone) disc q :
  subsampled_pld (fun adj => let? m := cls adj in monotone_pmf fuel m true disc false) q =
  subsampled_pld (fun adj => let? m := cls adj in buckets_pmf fuel m true disc) q.
Proof. reflexivity. Qed.
Lemma pld_shifted r cls ok F f s q disc fuel D : 0 < disc -> grid_clear disc q ->
  (forall adj m, cls adj = Ok m -> additive_noise m ok F f s q adj) ->
  (forall adj m p, cls adj = Ok m -> buckets_pmf fuel m true disc = Ok p ->
    wf p /\ infinity_mass p <= 1 /\ pessimistic_estimate p = true /\ curve_above p (upper_law adj F q s) (lower_law adj F q s)) ->
  (forall adj m p, cls adj = Ok m -> buckets_pmf fuel m true disc = Ok p -> shifted r disc p (upper_law adj F q s) (lower_law adj F q s)) ->
  subsampled_pld (fun adj => let? m := cls adj in monotone_pmf fuel m true disc false) q = Ok D ->
  forall eps, exists d d', worst_delta ok F q s eps d /\ worst_delta ok F q s (eps - disc) d' /\
    d <= pld_delta D (Fin eps) <= d' + r /\ d' <= d + (exp disc - 1).
Proof.
  intros Hd HG HC HA HB H. rewrite buckets_pld in H.
  destruct (subsampled_sound cls ok F f s q (fun m => buckets_pmf fuel m true disc) HC) with (D := D) as [SD BD]; [|exact H|].
  { intros adj m p Hm Hp. destruct (HA adj m p Hm Hp) as (W & I & P & A). repeat split; try assumption; apply W. }
  revert H. unfold subsampled_pld. destruct (cls REMOVE) as [mr|] eqn:Er; cbn [bind]; [|discriminate].
  destruct (buckets_pmf fuel mr true disc) as [pr|] eqn:Br; cbn [bind]; [|discriminate]. pose proof (HC _ _ Er) as Nr.
  pose proof (HB _ _ _ Er Br) as Cr.
  intros H eps. destruct (worst_exists mr ok F f s q eps Nr) as [d W]. destruct (worst_exists mr ok F f s q (eps - disc) Nr) as [d' W'].
  exists d, d'. split; [exact W|]. split; [exact W'|].
  assert (HV : forall E, noisy_query ok F q s E -> valid E /\ valid (swap E)).
  { intros E HE. pose proof (proj1 (BD E HE)) as V. split; [exact V | destruct V as (N & A & B); split; [intros a Ha; destruct (N a Ha); split; assumption | split; assumption]]. }
  split; [split; [apply (worst_le _ _ _ _ _ _ _ BD SD W)|] |].
  2: { assert (LE : eps - disc <= eps) by lra. pose proof (worst_slow ok F q s _ _ _ _ HV LE W' W) as K. replace (eps - (eps - disc)) with disc in K by ring. exact K. }
  destruct (additive_instance _ _ _ _ _ _ _ Nr) as [Hq Hs Ho Hf (pk & cdf & loss0 & inv0 & pt & L & dc & tail & bounds & E & HF & _)].
  pose proof (delta_at_peak _ _ _ _ _ HF q Hq REMOVE (eps - disc)) as DR. pose proof (delta_at_peak _ _ _ _ _ HF q Hq ADD (eps - disc)) as DA.
  set (dr := delta_at F s q REMOVE (eps - disc) (peak REMOVE q s pk (eps - disc))) in *.
  set (da := delta_at F s q ADD (eps - disc) (peak ADD q s pk (eps - disc))) in *.
  destruct W' as [W' _].
  assert (R1 : dr <= d').
  { destruct DR as [_ (cuts & SC & EQ)]. destruct (W' _ (extreme_remove ok F q s cuts Hf Ho Hs SC)) as [B1 _]. apply dp_iff_hockey in B1.
    rewrite <- EQ. exact B1. }
  assert (R2 : da <= d').
  { destruct DA as [_ (cuts & SC & EQ)]. destruct (W' _ (extreme_add ok F q s cuts Hf Ho Hs SC)) as [_ B1]. apply dp_iff_hockey in B1.
    rewrite <- EQ. exact B1. }
  pose proof (Cr eps dr DR) as C1.
  destruct (Reqb_spec q 1) as [Q|Q].
  - injection H as <-. change (pld_delta (new_pld pr None) (Fin eps)) with (pmf_delta pr (Fin eps)). lra.
  - destruct (cls ADD) as [ma|] eqn:Ea; cbn [bind] in H; [|discriminate]. destruct (buckets_pmf fuel ma true disc) as [pa|] eqn:Ba; cbn [bind] in H; [|discriminate].
    pose proof (HB _ _ _ Ea Ba eps da DA) as C2. injection H as <-.
    change (pld_delta (new_pld pr (Some pa)) (Fin eps)) with (Rmax (pmf_delta pr (Fin eps)) (pmf_delta pa (Fin eps))). apply Rmax_lub; lra.
Qed.

Lemma shift_0 (P Q : R -> Prop) x e : (exists d d', P d /\ Q d' /\ d <= x <= d' + 0 /\ d' <= d + e) -> exists d d', P d /\ Q d' /\ d <= x <= d' /\ d' <= d + e.
Proof. intros (d & d' & A & B & C & E). exists d, d'. repeat split; try assumption; lra. Qed.
Lemma laplace_near fuel b s disc q D : 0 < disc -> grid_clear disc q ->
  from_laplace_mechanism fuel b s true disc q false = Ok D ->
  forall eps, exists d d', worst_delta any_value (laplace_law b) q s eps d /\ worst_delta any_value (laplace_law b) q s (eps - disc) d' /\
    d <= pld_delta D (Fin eps) <= d' /\ d' <= d + (exp disc - 1).
Proof.
  intros Hd HG H eps. apply shift_0.
  apply (pld_shifted 0 (LaplacePrivacyLoss b s q) _ _ _ s q disc fuel D Hd HG (fun adj m Hm => laplace_noise m b s q adj Hm)); [| |exact H].
  - intros adj m p Hm Hp. apply (laplace_buckets b s q adj disc true fuel m p Hd (HG adj) Hm Hp).
  - intros adj m p Hm Hp. apply (laplace_shifted b s q adj disc fuel m p Hd (HG adj) Hm Hp).
Qed.
Lemma gaussian_near Phi ppf fuel sigma s lb disc q D : normal_cdf Phi -> quantile_of Phi ppf -> 0 < disc -> grid_clear disc q ->
  from_gaussian_mechanism Phi ppf fuel sigma s true disc lb q false = Ok D ->
  forall eps, exists d d', worst_delta any_value (fun x => Phi (x / sigma)) q s eps d /\ worst_delta any_value (fun x => Phi (x / sigma)) q s (eps - disc) d' /\
    d <= pld_delta D (Fin eps) <= d' + exp lb /\ d' <= d + (exp disc - 1).
Proof.
  intros HP HQ Hd HG H.
  assert (HC : exists f, forall adj m, GaussianPrivacyLoss Phi ppf sigma s true lb q adj = Ok m -> additive_noise m any_value (fun x => Phi (x / sigma)) f s q adj).
  { eexists. intros adj m Hm. eapply gaussian_noise; [exact HP | exact Hm]. }
  destruct HC as [f HC]. apply (pld_shifted (exp lb) (GaussianPrivacyLoss Phi ppf sigma s true lb q) _ _ f s q disc fuel D Hd HG HC); [| |exact H].
  - intros adj m p Hm Hp. apply (gaussian_buckets Phi ppf sigma s lb q adj disc true fuel m p HP HQ Hd (HG adj) Hm Hp).
  - intros adj m p Hm Hp. apply (gaussian_shifted Phi ppf sigma s lb q adj disc fuel m p HP HQ Hd (HG adj) Hm Hp).
Qed.
Lemma dlaplace_near fuel a s F disc q D : integer_noise (dlaplace_weights a) F -> 0 < disc -> grid_clear disc q ->
  from_discrete_laplace_mechanism fuel a s true disc q false = Ok D ->
  forall eps, exists d d', worst_delta integer_value F q (IZR s) eps d /\ worst_delta integer_value F q (IZR s) (eps - disc) d' /\
    d <= pld_delta D (Fin eps) <= d' /\ d' <= d + (exp disc - 1).
Proof.
  intros HF Hd HG H eps. apply shift_0.
  assert (EF : forall adj m, DiscreteLaplacePrivacyLoss a s q adj = Ok m -> F = dlaplace_law a).
  { intros adj m Hm. apply dlaplace_ok in Hm. destruct Hm as [(Ha & _) _].
    apply functional_extensionality, (integer_noise_unique (dlaplace_weights a)); [exact HF | apply dlaplace_noise, Ha]. }
  apply (pld_shifted 0 (DiscreteLaplacePrivacyLoss a s q) _ _ _ (IZR s) q disc fuel D Hd HG (fun adj m Hm => discrete_laplace_noise m a s q adj F HF Hm)); [| |exact H].
  - intros adj m p Hm Hp. rewrite (EF adj m Hm). apply (dlaplace_buckets a s q adj disc true fuel m p Hd (fun _ => HG adj) Hm Hp).
  - intros adj m p Hm Hp. rewrite (EF adj m Hm). apply (dlaplace_shifted a s q adj disc fuel m p Hd (HG adj) Hm Hp).
Qed.
Lemma dgauss_near fuel sigma s bound F disc q D : integer_noise (dgaussian_weights sigma (default_bound sigma bound)) F -> 0 < disc -> grid_clear disc q ->
  from_discrete_gaussian_mechanism fuel sigma s bound true disc q false = Ok D ->
  forall eps, exists d d', worst_delta integer_value F q (IZR s) eps d /\ worst_delta integer_value F q (IZR s) (eps - disc) d' /\
    d <= pld_delta D (Fin eps) <= d' /\ d' <= d + (exp disc - 1).
Proof.
  intros HF Hd HG H eps. apply shift_0. unfold from_discrete_gaussian_mechanism in H. set (T := default_bound sigma bound) in *.
  assert (EF : forall adj m, DiscreteGaussianPrivacyLoss sigma s T q adj = Ok m -> F = dgaussian_law sigma T).
  { intros adj m Hm. apply dgauss_ok in Hm. destruct Hm as [(Hb & Hs & HT & _) _].
    apply functional_extensionality, (integer_noise_unique (dgaussian_weights sigma T)); [exact HF | apply dgaussian_noise; (assumption || lia)]. }
  apply (pld_shifted 0 (DiscreteGaussianPrivacyLoss sigma s T q) _ _ _ (IZR s) q disc fuel D Hd HG (fun adj m Hm => discrete_gaussian_noise m sigma s T q adj F HF Hm)); [| |exact H].
  - intros adj m p Hm Hp. rewrite (EF adj m Hm). apply (dgauss_buckets sigma s T q adj disc true fuel m p Hd (fun _ => HG adj) Hm Hp).
  - intros adj m p Hm Hp. rewrite (EF adj m Hm). apply (dgauss_shifted sigma s T q adj disc fuel m p Hd (HG adj) Hm Hp).
Qed.
