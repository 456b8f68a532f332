(** The privacy buckets of a Laplace mechanism on a grid that meets the limit of the privacy loss. *)
From Verif Require Import Base XReal Exn PyDict TypesAdjacency ModelLog ModelCommon ModelPmf ModelPld ModelMake ModelMech SpecDP SpecPmf SpecPld SpecMech SpecClasses SpecConstruct SpecAccErr
  ProofDP ProofDict ProofPmf ProofCompose2 ProofPeak ProofNoise ProofShape ProofShapeInt ProofAdditive ProofClasses ProofMechTop ProofBuckets ProofTails ProofTailClasses ProofConstruct ProofConstructTotal ProofConstructEx ProofGridRaise ProofShapeInt.
Local Arguments Rltb : simpl never.
Local Arguments Rleb : simpl never.
Local Arguments Reqb : simpl never.

(** sums over a pmf whose masses may have any sign *)
Definition distinct (p : pmf) : Prop := match pmf_body p with Sparse d => NoDup (map fst d) | Dense _ _ => True end.
Lemma create_sums d disc inf pess p : NoDup (keys d) -> create_pmf d disc inf pess = Ok p ->
  distinct p /\ (forall g, psum p g = dsum d g) /\ infinity_mass p = inf /\ discretization p = disc.
Proof.
  intros ND. unfold create_pmf. destruct (_ <=? _)%Z.
  - intros [= <-]. repeat split. exact ND.
  - destruct (dictionary_to_list d) as [[lo l]|] eqn:E; cbn [bind]; [|discriminate]. intros [= <-].
    split; [exact I|]. split; [|split; reflexivity]. intros g. unfold psum. cbn [pmf_body]. apply dictionary_to_list_sum; assumption.
Qed.
Lemma losses_sum p g : distinct p -> rsum (fun kv => snd kv * g (fst kv)) (losses_probs p) = psum p g.
Proof.
  unfold distinct. intros ND. unfold losses_probs, psum. destruct (pmf_body p) as [d|lo l].
  - rewrite rsum_map. cbn [fst snd]. rewrite (rsum_zsort (fun k => dget0 d k * g k)). apply (rsum_keys d (fun k v => v * g k) ND).
  - apply lsum_items.
Qed.
Lemma delta_sum p e : distinct p -> pmf_delta p (Fin e) = psum p (hgain (discretization p) e) + infinity_mass p.
Proof.
  intros W. unfold pmf_delta, delta_for_epsilon. rewrite <- losses_sum by assumption. rewrite rsum_filter. unfold loss_floats.
  rewrite rsum_map. cbn [fst snd]. rewrite Rplus_comm. f_equal.
  apply rsum_ext. intros [k v] _. cbn [fst snd]. unfold hgain. rcase.
  - rewrite pos_eq; [lra|]. assert (exp (e - IZR k * discretization p) < exp 0) by (apply exp_increasing; lra). rewrite exp_0 in *. lra.
  - rewrite pos_0; [lra|]. assert (exp 0 <= exp (e - IZR k * discretization p)) by (apply exp_le; lra). rewrite exp_0 in *. lra.
Qed.

Lemma interval_nodup fuel : forall m pess disc hi ul x down d d', NoDup (keys d) -> interval_masses fuel m pess disc hi ul x down d = Ok d' -> NoDup (keys d').
Proof.
  induction fuel as [|fuel IH]; intros m pess disc hi ul x down d d' ND; cbn [interval_masses]; destruct (xltb x (Fin hi)); try discriminate; try (intros [= <-]; exact ND).
  destruct (if xleb _ ul then _ else _) as [x'|]; cbn [bind]; [|discriminate]. intros H. eapply IH; [|exact H]. apply NoDup_dadd, ND.
Qed.
(** the loop only adds to the buckets at and below the current one *)
Lemma interval_below fuel : forall m pess disc hi ul x down d d' (g : Z -> R) K, NoDup (keys d) -> (forall j, (j <= K)%Z -> g j = 0) -> (down < K)%Z ->
  interval_masses fuel m pess disc hi ul x down d = Ok d' -> dsum d' g = dsum d g.
Proof.
  induction fuel as [|fuel IH]; intros m pess disc hi ul x down d d' g K ND Hg Hk; cbn [interval_masses]; destruct (xltb x (Fin hi)); try discriminate; try (intros [= <-]; reflexivity).
  destruct (if xleb _ ul then _ else _) as [x'|]; cbn [bind]; [|discriminate]. intros H. eapply IH in H; [|apply NoDup_dadd, ND | exact Hg | lia].
  rewrite H, dsum_dadd by exact ND. rewrite round_half, Hg; [ring|]. destruct pess; lia.
Qed.

Section Laplace.
  Context (b s q disc : R).
  Hypothesis Hb : 0 < b.
  Hypothesis Hs : 0 < s.
  Hypothesis Hq : 0 < q < 1.
  Hypothesis Hd : 0 < disc.
  Let m adj := additive s q adj (laplace_cdf b) (laplace_loss0 b s adj) (laplace_inverse0 b s adj) false (laplace_tail b s q adj) (laplace_bounds b s q adj).
  Lemma g_m adj : LaplacePrivacyLoss b s q adj = Ok (m adj).
  Proof. unfold LaplacePrivacyLoss. rewrite Rleb_false by lra. rewrite check_additive_true by lra. reflexivity. Qed.
  Let HF := laplace_fits b s Hb Hs.
  Let HL := laplace_loses b s Hb Hs.
  Let Hq' : 0 < q <= 1.
  Proof. lra. Qed.
  Let U adj := upper_law adj (laplace_law b) q s.
  Lemma g_mu adj x : mu_upper_cdf (m adj) x = at_end (U adj) x.
  Proof. apply (in_mu _ _ _ _ (laplace_loss0 b s) _ HF q Hq' adj false). Qed.
  Lemma g_loss adj x : privacy_loss (m adj) (Fin x) = Ok (sub_loss adj q (base_loss s (fun x => Fin ((Rabs x - Rabs (x + s)) / b)) adj x)).
  Proof. apply (loss_ok _ _ _ _ _ HL q Hq' adj x). exact Logic.I. Qed.
  Lemma g_lo adj : base_loss s (fun x => Fin ((Rabs x - Rabs (x + s)) / b)) adj (match adj with ADD => 0 | REMOVE => - s end) = Fin (s / b).
  Proof.
    destruct adj; cbn [base_loss]; do 2 f_equal.
    - replace (0 - s + s) with 0 by ring. rewrite Rabs_R0, Rabs_left by lra. ring.
    - replace (- s + s) with 0 by ring. rewrite Rabs_R0, Rabs_left by lra. ring.
  Qed.
  Lemma g_hi adj : base_loss s (fun x => Fin ((Rabs x - Rabs (x + s)) / b)) adj (match adj with ADD => s | REMOVE => 0 end) = Fin (- (s / b)).
  Proof.
    destruct adj; cbn [base_loss].
    - replace (s - s + s) with s by ring. replace (s - s) with 0 by ring. rewrite Rabs_R0, Rabs_right by lra. f_equal. field. lra.
    - replace (0 + s) with s by ring. rewrite Rabs_R0, Rabs_right by lra. f_equal. field. lra.
  Qed.
  (** what the inverse returns next to the limit *)
  Lemma g_near adj l : near_limit adj q l -> inverse_privacy_loss (m adj) (Fin l) = Ok (match adj with ADD => MInf | REMOVE => PInf end).
  Proof.
    intros N. unfold m. cbn [additive inverse_privacy_loss]. unfold a_inverse_privacy_loss. rewrite Reqb_false by lra.
    pose proof (proj2 (isclose_near q adj l ltac:(lra)) N) as I. pose proof (limit_val q adj ltac:(lra)) as LV.
    destruct adj; rewrite LV, I; unfold laplace_inverse0; cbn [xmul]; unfold inf_times; rewrite Rltb_true by lra; reflexivity.
  Qed.
  (** what the construction computes, up to the loop *)
  Definition g_l1 adj : R := match sub_loss adj q (Fin (s / b)) with Fin a => a | _ => 0 end.
  Definition g_l2 adj : R := match sub_loss adj q (Fin (- (s / b))) with Fin a => a | _ => 0 end.
  Definition g_tail (pess : bool) adj : dict :=
    dadd (dadd [] (round_fn pess (g_l1 adj / disc)) (U adj (match adj with ADD => 0 | REMOVE => - s end)))
         (round_fn pess (g_l2 adj / disc)) (1 - U adj (match adj with ADD => s | REMOVE => 0 end)).
  Lemma g_buckets fuel (pess : bool) adj r : buckets_pmf fuel (m adj) pess disc = Ok r ->
    exists d, interval_masses fuel (m adj) pess disc (match adj with ADD => s | REMOVE => 0 end) (Fin (g_l2 adj)) (Fin (match adj with ADD => 0 | REMOVE => - s end))
                (Rfloor (g_l1 adj / disc)) (g_tail pess adj) = Ok d /\ create_pmf d disc 0 pess = Ok r.
  Proof.
    unfold buckets_pmf. set (lo := match adj with ADD => 0 | REMOVE => - s end). set (hi := match adj with ADD => s | REMOVE => 0 end).
    assert (E1 : privacy_loss (m adj) (Fin lo) = Ok (Fin (g_l1 adj))).
    { rewrite g_loss. unfold lo. rewrite g_lo. unfold g_l1. destruct (sub_loss_fin adj q (s / b)) as [a ->]. reflexivity. }
    assert (E2 : privacy_loss (m adj) (Fin hi) = Ok (Fin (g_l2 adj))).
    { rewrite g_loss. unfold hi. rewrite g_hi. unfold g_l2. destruct (sub_loss_fin adj q (- (s / b))) as [a ->]. reflexivity. }
    assert (NE : xeqb (Fin (g_l1 adj)) (Fin (g_l2 adj)) = false).
    { assert (C : 0 < s / b) by (apply Rdiv_lt_0_compat; assumption). pose proof (sub_loss_strict adj q (- (s / b)) (s / b) Hq' ltac:(lra)) as S.
      unfold g_l1, g_l2. destruct (sub_loss_fin adj q (s / b)) as [a Ea]. destruct (sub_loss_fin adj q (- (s / b))) as [c Ec]. rewrite Ea, Ec in S |- *.
      cbn [xltb] in S. cbn [xeqb]. apply Reqb_false. intros ->. rewrite Rltb_false in S by lra. discriminate. }
    assert (ET : privacy_loss_tail (m adj) = Ok (mkTail lo hi [(Fin (g_l1 adj), U adj lo); (Fin (g_l2 adj), 1 - U adj hi)])).
    { unfold m. cbn [additive privacy_loss_tail]. unfold laplace_tail.
      assert (EP : (match adj with ADD => (0, s) | REMOVE => (- s, 0) end) = (lo, hi)) by (destruct adj; reflexivity). rewrite EP.
      unfold laplace_privacy_loss. unfold m in E1, E2. cbn [additive privacy_loss] in E1, E2. rewrite E1, E2. cbn [bind]. unfold dict2. rewrite NE.
      unfold laplace_mu. rewrite !(upper_cdf _ _ _ _ _ HF q Hq' adj). reflexivity. }
    rewrite ET. cbn [bind lower_x_truncation upper_x_truncation tail_masses tail_rounded xeqb].
    assert (RX : forall (r : bool) a, round_xr r (xdiv (Fin a) (Fin disc)) = Ok (round_fn r (a / disc))) by (intros; cbn [xdiv]; rewrite Reqb_false by lra; reflexivity).
    rewrite !RX. cbn [bind]. change (is_discrete (m adj)) with false. cbn iota. rewrite E1. cbn [bind]. rewrite RX. cbn [bind]. rewrite E2. cbn [bind].
    change (dadd (dadd [] (round_fn pess (g_l1 adj / disc)) (U adj lo)) (round_fn pess (g_l2 adj / disc)) (1 - U adj hi)) with (g_tail pess adj).
    cbn [round_fn]. destruct (interval_masses _ _ _ _ _ _ _ _ _) as [d|] eqn:EI; cbn [bind]; [|discriminate]. intros H. exists d. split; [reflexivity | exact H].
  Qed.
  Lemma g_tail_nodup pess adj : NoDup (keys (g_tail pess adj)).
  Proof. unfold g_tail. repeat apply NoDup_dadd. constructor. Qed.

  (** ** the mass of the last interval is counted twice *)
  Section Twice.
    Context (z : Z).
    Hypothesis Hnear : near_limit REMOVE q (disc * IZR z).
    Hypothesis Habove : g_l2 REMOVE < disc * IZR z.
    Lemma interval_overflows fuel : forall pess x down d d', NoDup (keys d) -> xltb x (Fin 0) = true -> (z <= down)%Z ->
      interval_masses fuel (m REMOVE) pess disc 0 (Fin (g_l2 REMOVE)) x down d = Ok d' ->
      dsum d' (fun _ => 1) = dsum d (fun _ => 1) + (1 - mu_upper_cdf (m REMOVE) x).
    Proof.
      induction fuel as [|fuel IH]; intros pess x down d d' ND Hx Hz; cbn [interval_masses]; rewrite Hx; [discriminate|].
      assert (GT : g_l2 REMOVE < disc * IZR down).
      { eapply Rlt_le_trans; [exact Habove|]. apply Rmult_le_compat_l; [lra | apply IZR_le, Hz]. }
      assert (XF : xleb (Fin (disc * IZR down)) (Fin (g_l2 REMOVE)) = false).
      { destruct (xleb _ _) eqn:E; [|reflexivity]. apply xleb_fin in E. lra. }
      rewrite XF. destruct (near_dec q REMOVE (disc * IZR down)) as [NL|NL].
      - rewrite (g_near REMOVE _ NL). cbn [bind]. intros H.
        assert (E : d' = dadd d (round_fn pess (IZR down + 1 / 2)) (mu_upper_cdf (m REMOVE) PInf - mu_upper_cdf (m REMOVE) x)) by (destruct fuel; cbn [interval_masses xltb] in H; congruence).
        rewrite E, dsum_dadd by exact ND. rewrite (g_mu REMOVE PInf). cbn [at_end]. ring.
      - destruct (inverse_privacy_loss (m REMOVE) (Fin (disc * IZR down))) as [x'|] eqn:EI; cbn [bind]; [|discriminate]. intros H.
        pose proof (in_inverse _ _ _ _ (laplace_loss0 b s) _ HF q Hq' REMOVE false (laplace_tail b s q REMOVE) (laplace_bounds b s q REMOVE) _ _ EI NL) as EX.
        assert (E2 : privacy_loss (m REMOVE) (Fin 0) = Ok (Fin (g_l2 REMOVE))).
        { rewrite g_loss. rewrite (g_hi REMOVE). unfold g_l2. destruct (sub_loss_fin REMOVE q (- (s / b))) as [a ->]. reflexivity. }
        pose proof (in_strict _ _ _ _ _ _ _ _ HF HL q Hq' REMOVE false (laplace_tail b s q REMOVE) (laplace_bounds b s q REMOVE) 0 _ (disc * IZR down) E2) as ST.
        rewrite <- EX in ST. specialize (ST ltac:(cbn [xltb]; apply Rltb_true, GT)).
        assert (down <> z) by (intros ->; exact (NL Hnear)).
        rewrite (IH pess x' (down - 1)%Z _ d' (NoDup_dadd _ _ _ ND) ST ltac:(lia) H), dsum_dadd by exact ND. ring.
    Qed.
    Lemma twice_total fuel pess r : buckets_pmf fuel (m REMOVE) pess disc = Ok r ->
      distinct r /\ infinity_mass r = 0 /\ psum r (fun _ => 1) = 2 - U REMOVE 0.
    Proof.
      intros H. destruct (g_buckets _ _ _ _ H) as (d & HI & HC). cbn beta iota in HI.
      pose proof (interval_nodup _ _ _ _ _ _ _ _ _ _ (g_tail_nodup pess REMOVE) HI) as ND.
      destruct (create_sums _ _ _ _ _ ND HC) as (DI & PS & IM & _). split; [exact DI|]. split; [exact IM|]. rewrite PS.
      assert (Z1 : (z <= Rfloor (g_l1 REMOVE / disc))%Z).
      { assert (C : 0 < s / b) by (apply Rdiv_lt_0_compat; assumption).
        assert (LL : 0 <= g_l1 REMOVE).
        { unfold g_l1. cbn [sub_loss sub_remove]. rewrite <- ln_1. assert (1 <= exp (s / b)) by (rewrite <- exp_0; apply exp_le; lra). apply ln_le_iff; nra. }
        assert (ZN : IZR z < 0).
        { destruct Hnear as [_ HN]. cbn [loss_limit] in HN. assert (LN : ln (1 - q) < 0) by (rewrite <- ln_1; apply ln_increasing; lra).
          apply Rnot_le_lt. intros G. assert (P : 0 <= disc * IZR z) by (apply Rmult_le_pos; lra).
          rewrite !(Rabs_right (disc * IZR z)), Rabs_right, Rabs_left in HN by lra.
          assert (Rmax (disc * IZR z) (- ln (1 - q)) <= disc * IZR z + - ln (1 - q)) by (apply Rmax_lub; lra). nra. }
        assert (0 <= g_l1 REMOVE / disc) by (apply Rmult_le_pos; [exact LL | left; apply Rinv_0_lt_compat, Hd]).
        pose proof (Rfloor_spec (g_l1 REMOVE / disc)) as FS. assert (-1 < Rfloor (g_l1 REMOVE / disc))%Z by (apply lt_IZR; lra).
        assert (z < 0)%Z by (apply lt_IZR; lra). lia. }
      rewrite (interval_overflows fuel pess (Fin (- s)) _ _ d (g_tail_nodup pess REMOVE) ltac:(cbn [xltb]; apply Rltb_true; lra) Z1 HI).
      rewrite g_mu. cbn [at_end]. unfold g_tail. rewrite !dsum_dadd by (repeat apply NoDup_dadd; constructor). cbn [dsum rsum]. unfold dsum. cbn. lra.
    Qed.
  End Twice.

  (** ** the first interval gets a negative mass *)
  Section Negative.
    Context (k : Z).
    Hypothesis Hgrid : disc * IZR k = g_l1 ADD.
    Hypothesis Hnear : near_limit ADD q (g_l1 ADD).
    Lemma negative_delta fuel r : buckets_pmf fuel (m ADD) true disc = Ok r -> pmf_delta r (Fin (IZR k * disc)) = - ((1 - exp (- disc)) / 2).
    Proof.
      intros H. destruct (g_buckets _ _ _ _ H) as (d & HI & HC). cbn beta iota in HI.
      pose proof (interval_nodup _ _ _ _ _ _ _ _ _ _ (g_tail_nodup true ADD) HI) as ND.
      destruct (create_sums _ _ _ _ _ ND HC) as (DI & PS & IM & DC). rewrite delta_sum, PS, IM, DC by exact DI.
      assert (EK : g_l1 ADD / disc = IZR k) by (rewrite <- Hgrid; field; lra). rewrite EK, Rfloor_IZR in HI.
      set (g := hgain disc (IZR k * disc)) in *.
      assert (G0 : forall j, (j <= k)%Z -> g j = 0).
      { intros j Hj. unfold g, hgain. apply pos_0. assert (exp 0 <= exp (IZR k * disc - IZR j * disc)); [|rewrite exp_0 in *; lra].
        apply exp_le. pose proof (IZR_le _ _ Hj). nra. }
      assert (G1 : g (k + 1)%Z = 1 - exp (- disc)).
      { unfold g, hgain. rewrite plus_IZR. replace (IZR k * disc - (IZR k + 1) * disc) with (- disc) by ring.
        assert (exp (- disc) < exp 0) by (apply exp_increasing; lra). rewrite exp_0 in *. rewrite pos_eq; lra. }
      assert (C : 0 < s / b) by (apply Rdiv_lt_0_compat; assumption).
      assert (L21 : g_l2 ADD < g_l1 ADD).
      { pose proof (sub_loss_strict ADD q (- (s / b)) (s / b) Hq' ltac:(lra)) as S. unfold g_l1, g_l2.
        destruct (sub_loss_fin ADD q (s / b)) as [a Ea]. destruct (sub_loss_fin ADD q (- (s / b))) as [c Ec]. rewrite Ea, Ec in S |- *.
        cbn [xltb] in S. destruct (Rltb_spec c a); [assumption | discriminate]. }
      assert (C2 : (Rceil (g_l2 ADD / disc) <= k)%Z).
      { assert (g_l2 ADD / disc < IZR k) by (rewrite <- EK; apply Rmult_lt_compat_r; [apply Rinv_0_lt_compat|]; assumption).
        pose proof (Rceil_spec (g_l2 ADD / disc)). assert (Rceil (g_l2 ADD / disc) < k + 1)%Z by (apply lt_IZR; rewrite plus_IZR; lra). lia. }
      destruct fuel as [|fuel]; cbn [interval_masses xltb] in HI; rewrite Rltb_true in HI by lra; [discriminate HI|].
      assert (XF : xleb (Fin (disc * IZR k)) (Fin (g_l2 ADD)) = false).
      { destruct (xleb _ _) eqn:E; [|reflexivity]. apply xleb_fin in E. lra. }
      rewrite XF in HI. rewrite Hgrid in HI. rewrite (g_near ADD _ Hnear) in HI. cbn [bind] in HI.
      assert (KK : (k - 1 < k)%Z) by lia.
      rewrite (interval_below _ _ _ _ _ _ _ _ _ d g k (NoDup_dadd _ _ _ (g_tail_nodup true ADD)) G0 KK HI).
      rewrite dsum_dadd by apply g_tail_nodup. rewrite round_half. unfold g_tail. rewrite !dsum_dadd by (repeat apply NoDup_dadd; constructor).
      cbn [round_fn]. rewrite EK. rewrite (ceil_Z k), (G0 k), (G0 _ C2) by lia. rewrite !g_mu. cbn [at_end U upper_law]. unfold laplace_law. rewrite Rltb_false by lra.
      rewrite G1. replace (- 0 / b) with 0 by (field; lra). rewrite exp_0. unfold dsum. cbn [rsum]. lra.
    Qed.
  End Negative.
End Laplace.

(** the reported delta approaches the total mass *)
Lemma hgain_far disc (l : list (Z * R)) : exists e0, forall e, e <= e0 ->
  rsum (fun kv => snd kv * hgain disc e (fst kv)) l = rsum (fun kv => snd kv * 1) l - exp e * rsum (fun kv => snd kv * exp (- (IZR (fst kv) * disc))) l.
Proof.
  induction l as [|[k v] l [e0 IH]]; [exists 0; intros; cbn; ring|].
  exists (Rmin e0 (IZR k * disc)). intros e He. pose proof (Rmin_l e0 (IZR k * disc)). pose proof (Rmin_r e0 (IZR k * disc)).
  cbn [rsum fst snd]. rewrite IH by lra. unfold hgain. rewrite pos_eq.
  - replace (e - IZR k * disc) with (e + - (IZR k * disc)) by ring. rewrite exp_plus. ring.
  - assert (exp (e - IZR k * disc) <= exp 0) by (apply exp_le; lra). rewrite exp_0 in *. lra.
Qed.
Lemma delta_far p t : distinct p -> t < psum p (fun _ => 1) + infinity_mass p -> exists eps, t < pmf_delta p (Fin eps).
Proof.
  intros DI Ht. destruct (hgain_far (discretization p) (losses_probs p)) as [e0 H].
  set (S := rsum (fun kv => snd kv * exp (- (IZR (fst kv) * discretization p))) (losses_probs p)) in *.
  set (gap := psum p (fun _ => 1) + infinity_mass p - t) in *. assert (0 < gap) by (unfold gap; lra).
  assert (B : 0 < gap / (1 + Rabs S)) by (apply Rdiv_lt_0_compat; [assumption | pose proof (Rabs_pos S); lra]).
  exists (Rmin e0 (ln (gap / (1 + Rabs S)))). set (e := Rmin _ _).
  rewrite delta_sum, <- losses_sum, H by (assumption || apply Rmin_l). rewrite (losses_sum p (fun _ => 1) DI).
  assert (EE : exp e <= gap / (1 + Rabs S)) by (rewrite <- (exp_ln (gap / (1 + Rabs S))) by assumption; apply exp_le, Rmin_r).
  pose proof (exp_pos e). pose proof (Rle_abs S) as SA. pose proof (Rabs_pos S) as SP.
  assert (EQ : gap / (1 + Rabs S) * (1 + Rabs S) = gap) by (field; lra).
  assert (exp e * S < gap).
  { apply Rle_lt_trans with (exp e * Rabs S); [apply Rmult_le_compat_l; lra|]. apply Rlt_le_trans with (exp e * (1 + Rabs S)); [nra|].
    rewrite <- EQ. apply Rmult_le_compat_r; lra. }
  unfold gap in *. lra.
Qed.

(** ** Concrete parameters *)
Lemma one_tenth : (1 / 10 ^ 10 : R) = 1 / 10000000000.
Proof. lra. Qed.
Lemma exp_80 : 0 < exp (- (80)) < 1 / 10 ^ 11.
Proof. split; [apply exp_pos|]. eapply Rlt_trans; [|exact exp_40]. apply exp_increasing. lra. Qed.
Lemma half_limit : ln (1 - 1/2) = - ln 2.
Proof. rewrite <- ln_Rinv by lra. f_equal. lra. Qed.
Lemma ln_half_80 : - ln 2 < ln (1/2 * exp (- (80)) + (1 - 1/2)) < - ln 2 + 1 / 10 ^ 11.
Proof.
  pose proof exp_80. replace (1/2 * exp (- (80)) + (1 - 1/2)) with (/ 2 * (1 + exp (- (80)))) by lra.
  rewrite ln_mult, ln_Rinv by lra. assert (ln (1 + exp (- (80))) <= exp (- (80))).
  { rewrite <- (ln_exp (exp (- (80)))) at 2. apply ln_le_iff; [lra | apply exp_pos|]. left. apply exp_ineq1. lra. }
  assert (0 < ln (1 + exp (- (80)))) by (rewrite <- ln_1 at 1; apply ln_increasing; lra). lra.
Qed.
Definition bad_disc : R := ln 2 * (1 - 1 / 10 ^ 10) / 10000.
Lemma bad_disc_pos : 0 < bad_disc < 1 / 10000.
Proof. pose proof ln_2_bounds. unfold bad_disc. rewrite one_tenth. split; nra. Qed.
Lemma bad_near : near_limit REMOVE (1/2) (bad_disc * IZR (-10000)).
Proof.
  pose proof (near_point REMOVE) as N. replace (bad_disc * IZR (-10000)) with (loss_limit REMOVE (1/2) * (1 - 1 / 10 ^ 10)); [exact N|].
  cbn [loss_limit]. rewrite half_limit. unfold bad_disc. field.
Qed.
Lemma grid_mass dots : exists N D eps,
  (forall fuel, (N <= fuel)%nat -> from_laplace_mechanism fuel 1 80 false bad_disc (1/2) dots = Ok D) /\ 6/5 < pld_delta D (Fin eps).
Proof.
  pose proof bad_disc_pos as Hd. destruct (laplace_constructs 1 80 false bad_disc (1/2) dots) as (N & D & HD); try lra; try discriminate.
  pose proof (HD N (le_n _)) as H. unfold from_laplace_mechanism, subsampled_pld, monotone_pmf in H. rewrite !(g_m 1 80 (1/2)) in H by lra. cbn [bind] in H.
  rewrite andb_false_r in H. destruct (buckets_pmf N _ false bad_disc) as [r|] eqn:ER in H; cbn [bind] in H; [|discriminate].
  rewrite Reqb_false in H by lra. destruct (buckets_pmf N _ false bad_disc) as [a|] eqn:EA in H; cbn [bind] in H; [|discriminate]. injection H as HE.
  destruct (twice_total 1 80 (1/2) bad_disc ltac:(lra) ltac:(lra) ltac:(lra) ltac:(lra) (-10000) bad_near) with (2 := ER) as (DI & IM & PS).
  { unfold g_l2. cbn [sub_loss sub_remove]. replace (- (80 / 1)) with (- (80)) by field. pose proof ln_half_80. pose proof ln_2_bounds.
    unfold bad_disc. rewrite one_tenth. replace (1 / 10 ^ 11) with (1 / 100000000000) in * by lra. nra. }
  destruct (delta_far r (6/5) DI) as [eps He].
  { rewrite PS, IM. cbn [upper_law]. unfold remove_upper, sampled, laplace_law. rewrite !Rltb_false by lra.
    replace (- 0 / 1) with 0 by field. rewrite exp_0. pose proof (exp_pos (- (0 + 80) / 1)). lra. }
  exists N, D, eps. split; [exact HD|]. rewrite <- HE. unfold pld_delta. cbn [new_pld pmf_remove pmf_add symmetric].
  eapply Rlt_le_trans; [exact He|]. apply Rmax_l.
Qed.
Lemma grid_raises fuel : from_laplace_mechanism fuel 1 80 true bad_disc (1/2) true = Err ValueError.
Proof.
  pose proof bad_disc_pos as Hd. pose proof ln_2_bounds as L2. pose proof bad_near as BN. rewrite Rmult_comm in BN.
  assert (EZ : IZR (-10000) * bad_disc = - ln 2 + ln 2 * (1 / 10 ^ 10)) by (unfold bad_disc; field).
  apply (dots_raise 1 80 (1/2) bad_disc (-10000)); try lra.
  - cbn [loss_limit]. rewrite half_limit, EZ, one_tenth. lra.
  - exact BN.
  - intros [_ HN]. cbn [loss_limit Z.add Z.pos_sub Pos.pred_double] in HN. rewrite half_limit in HN.
    assert (ED : IZR (-10000 + 1) * bad_disc = - ln 2 * ((1 - 1 / 10 ^ 10) * (9999 / 10000))) by (unfold bad_disc; rewrite plus_IZR; field).
    change (-10000 + 1)%Z with (-9999)%Z in ED. rewrite ED in HN. rewrite one_tenth in HN.
    replace (1 / 10 ^ 9) with (1 / 1000000000) in HN by lra.
    rewrite (Rabs_left (- ln 2)), (Rabs_left (- ln 2 * _)) in HN by nra. rewrite Rmax_right in HN by nra. rewrite Rabs_right in HN by nra. nra.
  - replace (IZR (-10000 + 1)) with (-9999) by reflexivity. nra.
  - rewrite EZ, exp_plus, (exp_Ropp (ln 2)), exp_ln by lra. replace (- (80 / (2 * 1))) with (- (40)) by field. pose proof exp_40 as E4.
    assert (G : 1 + ln 2 * (1 / 10 ^ 10) < exp (ln 2 * (1 / 10 ^ 10))) by (apply exp_ineq1; rewrite one_tenth; lra).
    rewrite one_tenth in *. replace (1 / 10 ^ 11) with (1 / 100000000000) in * by lra. lra.
Qed.
Definition neg_disc : R := - ln (1/2 * exp (- (80)) + (1 - 1/2)) / 10000.
Lemma neg_disc_pos : 0 < neg_disc < 1 / 10000.
Proof.
  pose proof ln_half_80. pose proof ln_2_bounds. unfold neg_disc. replace (1 / 10 ^ 11) with (1 / 100000000000) in * by lra. lra.
Qed.
Lemma grid_negative : exists N D eps,
  (forall fuel, (N <= fuel)%nat -> from_laplace_mechanism fuel 1 80 true neg_disc (1/2) false = Ok D) /\ pmf_delta (pmf_add D) (Fin eps) = - ((1 - exp (- neg_disc)) / 2).
Proof.
  pose proof neg_disc_pos as Hd. pose proof ln_half_80 as H8. pose proof ln_2_bounds as L2.
  destruct (laplace_constructs 1 80 true neg_disc (1/2) false) as (N & D & HD); try lra; try discriminate.
  pose proof (HD N (le_n _)) as H. unfold from_laplace_mechanism, subsampled_pld, monotone_pmf in H. rewrite !(g_m 1 80 (1/2)) in H by lra. cbn [bind andb] in H.
  destruct (buckets_pmf N _ true neg_disc) as [r|] eqn:ER in H; cbn [bind] in H; [|discriminate].
  rewrite Reqb_false in H by lra. destruct (buckets_pmf N _ true neg_disc) as [a|] eqn:EA in H; cbn [bind] in H; [|discriminate]. injection H as HE.
  assert (EL : g_l1 1 80 (1/2) ADD = - ln (1/2 * exp (- (80)) + (1 - 1/2))).
  { unfold g_l1. cbn [sub_loss xneg sub_remove]. replace (- (80 / 1)) with (- (80)) by field. reflexivity. }
  exists N, D, (IZR 10000 * neg_disc). split; [exact HD|]. rewrite <- HE. cbn [new_pld pmf_add].
  apply (negative_delta 1 80 (1/2) neg_disc ltac:(lra) ltac:(lra) ltac:(lra) ltac:(lra) 10000) with (fuel := N).
  - rewrite EL. unfold neg_disc. field.
  - split; [lra|]. rewrite EL. cbn [loss_limit]. rewrite half_limit. replace (1 / 10 ^ 11) with (1 / 100000000000) in * by lra.
    replace (1 / 10 ^ 9) with (1 / 1000000000) by lra. set (w := ln (1 / 2 * exp _ + _)) in *. rewrite Ropp_involutive.
    rewrite Rmax_right by (rewrite !Rabs_right by lra; lra). rewrite (Rabs_right (ln 2)) by lra. rewrite Rabs_left by lra. lra.
  - exact EA.
Qed.

(** integer noise on the same grid *)
Lemma bad_not_clear : ~ grid_clear bad_disc (1/2).
Proof. intros H. apply (H REMOVE (-10000)%Z). pose proof bad_near as B. rewrite Rmult_comm in B. exact B. Qed.
Lemma grid_integer : exists N D F, ~ grid_clear bad_disc (1/2) /\
  from_mechanism N true false bad_disc (1/2) (Ok D) integer_value F 3 /\ exists E, noisy_query integer_value F (1/2) 3 E.
Proof.
  pose proof bad_disc_pos as Hd. destruct (dlaplace_constructs 1 3 true bad_disc (1/2) false) as (N & D & HD); try lra; try lia; try discriminate.
  exists N, D, (dlaplace_law 1). split; [exact bad_not_clear|]. split.
  - change 3 with (IZR 3). apply by_discrete_laplace with (a := 1); [apply dlaplace_noise; lra | lra | lia | apply HD, le_n].
  - eexists. exists 0, 3, [1; 2]. split; [exists 0%Z; reflexivity|]. split; [exists 3%Z; reflexivity|].
    split; [rewrite Rabs_right; lra|]. split; [|reflexivity]. repeat constructor; lra.
Qed.
Lemma grid_mass_at dots : exists disc N D eps, 0 < disc < 1 / 10000 /\
  (forall fuel, (N <= fuel)%nat -> from_laplace_mechanism fuel 1 80 false disc (1/2) dots = Ok D) /\ 6 / 5 < pld_delta D (Fin eps).
Proof. exists bad_disc. destruct (grid_mass dots) as (N & D & eps & H). exists N, D, eps. exact (conj bad_disc_pos H). Qed.
Lemma grid_negative_at : exists disc N D eps, 0 < disc < 1 / 10000 /\
  (forall fuel, (N <= fuel)%nat -> from_laplace_mechanism fuel 1 80 true disc (1/2) false = Ok D) /\ pmf_delta (pmf_add D) (Fin eps) = - ((1 - exp (- disc)) / 2).
Proof. exists neg_disc. destruct grid_negative as (N & D & eps & H). exists N, D, eps. exact (conj neg_disc_pos H). Qed.
