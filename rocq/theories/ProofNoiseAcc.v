(** The PLD accountant with the modelled constructors, on events of noise mechanisms. *)
From Verif Require Import Base XReal Exn PyDict TypesEvent TypesRelation TypesAdjacency SpecEvent ModelBuilder ModelPmf ModelPld ModelMake ModelMech ModelNoise ModelAccountant
  ModelSearch ModelCalculator SpecDP SpecPmf SpecPld SpecMake SpecMech SpecClasses SpecConstruct SpecAccountant SpecAccPld SpecNoiseAcc
  ProofDP ProofPmf ProofPeak ProofNoise ProofShape ProofShapeGauss ProofAdditive ProofClasses ProofMechTop ProofConstruct ProofConstructEx ProofFindNoise ProofInfMass
  ProofAccGen ProofAccSound ProofRRRdp ProofGdpSeq.
Local Arguments Rltb : simpl never.
Local Arguments Rleb : simpl never.
Local Arguments Reqb : simpl never.

(** ** Scaling *)
Definition scale_end (s : R) (x : xr) : xr := match x with Fin a => Fin (a * s) | _ => x end.
Lemma cells_scale s cuts : cells (map (fun x => x * s) cuts) = map (fun c => (scale_end s (fst c), scale_end s (snd c))) (cells cuts).
Proof.
  unfold cells. rewrite !map_map.
  assert (E0 : MInf :: map (fun x => Fin (x * s)) cuts = map (scale_end s) (MInf :: map Fin cuts)) by (cbn; rewrite map_map; reflexivity).
  assert (E : map (fun x => Fin (x * s)) cuts ++ [PInf] = map (scale_end s) (map Fin cuts ++ [PInf])) by (rewrite map_app, map_map; reflexivity).
  rewrite E, E0. generalize (MInf :: map Fin cuts) (map Fin cuts ++ [PInf]). intros l. induction l as [|x l IH]; intros [|y m]; cbn; try reflexivity. f_equal. apply IH.
Qed.
Lemma scaled_iso F q s E : 0 < s -> noisy_query any_value (fun x => F (x / s)) q s E -> exists E0, noisy_query any_value F q 1 E0 /\ iso E E0.
Proof.
  intros Hs (v & d & cuts & _ & _ & Hd & SC & ->).
  set (cuts0 := map (fun x => x / s) cuts).
  assert (EC : cuts = map (fun x => x * s) cuts0).
  { unfold cuts0. rewrite map_map. rewrite <- (map_id cuts) at 1. apply map_ext. intros x. field. lra. }
  assert (SC0 : StronglySorted Rlt cuts0).
  { unfold cuts0. clear EC cuts0. induction SC as [|x l SC IH HF]; cbn; constructor; [assumption|]. apply Forall_map. eapply Forall_impl; [|exact HF].
    intros y Hy. cbn. apply Rmult_lt_compat_r; [apply Rinv_0_lt_compat|]; assumption. }
  exists (observe (sampled q (add_noise F (v / s)) (add_noise F (v / s + d / s))) (add_noise F (v / s)) cuts0). split.
  - exists (v / s), (d / s), cuts0. repeat split; try assumption. unfold Rdiv. rewrite Rabs_mult, (Rabs_right (/ s)) by (apply Rle_ge, Rlt_le, Rinv_0_lt_compat; assumption).
    apply (Rmult_le_reg_r s); [assumption|]. rewrite Rmult_assoc, Rinv_l by lra. lra.
  - assert (K : forall w a, add_noise (fun x => F (x / s)) w (a * s) = add_noise F (w / s) a) by (intros w a; unfold add_noise; f_equal; field; lra).
    assert (A : forall P P0 : R -> R, (forall a, P (a * s) = P0 a) -> forall x, at_end P (scale_end s x) = at_end P0 x) by (intros P P0 H [a| | |]; cbn; auto).
    exists (fun c => (scale_end s (fst c), scale_end s (snd c))). split; [|split].
    + cbn [observe outs]. rewrite <- cells_scale, <- EC. reflexivity.
    + intros [x y]. cbn [observe prP fst snd]. rewrite !(A _ (sampled q (add_noise F (v / s)) (add_noise F (v / s + d / s)))); [reflexivity| |];
        intros a; unfold sampled; rewrite !K; replace ((v + d) / s) with (v / s + d / s) by (field; lra); reflexivity.
    + intros [x y]. cbn [observe prQ fst snd]. rewrite !(A _ (add_noise F (v / s))); [reflexivity| |]; intros a; apply K.
Qed.

Lemma rr_pair_valid rel p k E : 0 <= p <= 1 -> rr_pair rel p k E -> valid E.
Proof.
  intros Hp. destruct rel; cbn [rr_pair]; [contradiction | intros (x & y & Hx & Hy & _ & ->); apply rr_exper_valid; assumption | intros (x & Hx & ->); apply rr_special_valid; assumption].
Qed.

(** ** The constructors *)
Section Acc.
  Context (Phi ppf : R -> R) (mixture_pld : xr -> list xr -> list xr -> res pld) (fast_len : nat -> nat) (fuel : nat) (rel : relation) (disc : R).
  Hypothesis HPhi : normal_cdf Phi.
  Hypothesis Hppf : quantile_of Phi ppf.
  Hypothesis Hf : forall k, (k <= fast_len k)%nat.
  Hypothesis Hd : 0 < disc.
  Notation gp := (gaussian_pld_of Phi ppf fuel disc).
  Notation lp := (laplace_pld_of fuel disc).
  Notation mc := (pld_accountant Phi ppf mixture_pld fast_len fuel rel disc).
  Notation mech := (noise_event Phi rel).

  Lemma laplace_inv b q D : from_laplace_mechanism fuel b 1 true disc q true = Ok D -> 0 < b /\ 0 < q <= 1.
  Proof.
    unfold from_laplace_mechanism, subsampled_pld. destruct (LaplacePrivacyLoss b 1 q REMOVE) as [m|] eqn:Em; [|discriminate]. intros _.
    apply laplace_ok in Em. destruct Em as [(? & ? & ?) _]. auto.
  Qed.
  Lemma gaussian_inv sigma q D : from_gaussian_mechanism Phi ppf fuel sigma 1 true disc (-50) q true = Ok D -> 0 < sigma /\ 0 < q <= 1.
  Proof.
    unfold from_gaussian_mechanism, subsampled_pld. destruct (GaussianPrivacyLoss Phi ppf sigma 1 true (-50) q REMOVE) as [m|] eqn:Em; [|discriminate]. intros _.
    apply gaussian_ok in Em. destruct Em as [(? & ? & ? & _) _]. auto.
  Qed.
  Lemma scaled_bounds D F q E : (forall E, noisy_query any_value F q 1 E -> pld_bounds D E) -> scaled_query F q E -> pld_bounds D E.
  Proof.
    intros H (s & Hs & HE). destruct (scaled_iso F q s E Hs HE) as (E0 & H0 & I). eapply iso_pld; [exact I | apply H, H0].
  Qed.
  Lemma laplace_sound b q D : grid_clear disc q -> from_laplace_mechanism fuel b 1 true disc q true = Ok D ->
    sound_pld D /\ (forall E, scaled_query (laplace_law b) q E -> pld_bounds D E) /\ infinity_mass (pmf_remove D) = 0 /\ infinity_mass (pmf_add D) = 0.
  Proof.
    intros HG HD. destruct (laplace_inv _ _ _ HD) as [Hb Hq].
    destruct (constructed_sound fuel true disc q D any_value (laplace_law b) 1 Hd HG (by_laplace _ _ true _ _ _ b 1 Hb ltac:(lra) HD)) as [S B].
    split; [exact S|]. split; [intros E; apply scaled_bounds, B|].
    unfold from_laplace_mechanism, subsampled_pld in HD.
    assert (K : forall adj p, (let? m := LaplacePrivacyLoss b 1 q adj in monotone_pmf fuel m true disc true) = Ok p -> infinity_mass p = 0).
    { intros adj p. destruct (LaplacePrivacyLoss b 1 q adj) as [m|] eqn:Em; [|discriminate]. cbn [bind]. unfold monotone_pmf. cbn [andb]. intros Hp.
      apply (laplace_inf b 1 q adj disc m p Hd (HG adj) Em Hp). }
    destruct (let? m := LaplacePrivacyLoss b 1 q REMOVE in _) as [r|] eqn:Er; [|discriminate]. cbn [bind] in HD.
    destruct (Reqb q 1); [injection HD as <-; cbn; split; apply (K _ _ Er)|].
    destruct (let? m := LaplacePrivacyLoss b 1 q ADD in _) as [a|] eqn:Ea; [|discriminate]. injection HD as <-. split; [apply (K _ _ Er) | apply (K _ _ Ea)].
  Qed.
  Lemma gaussian_sound sigma q D : grid_clear disc q -> from_gaussian_mechanism Phi ppf fuel sigma 1 true disc (-50) q true = Ok D ->
    sound_pld D /\ (forall E, scaled_query (normal_law Phi sigma) q E -> pld_bounds D E) /\
    infinity_mass (pmf_remove D) <= 1/2 * exp (-50) /\ infinity_mass (pmf_add D) <= 1/2 * exp (-50).
  Proof.
    intros HG HD. destruct (gaussian_inv _ _ _ HD) as [Hb Hq].
    destruct (constructed_sound fuel true disc q D any_value (fun x => Phi (x / sigma)) 1 Hd HG (by_gaussian _ _ true _ _ _ Phi ppf sigma 1 (-50) HPhi Hppf Hb ltac:(lra) ltac:(lra) HD)) as [S B].
    split; [exact S|]. split; [intros E; apply scaled_bounds, B|].
    unfold from_gaussian_mechanism, subsampled_pld in HD.
    assert (K : forall adj p, (let? m := GaussianPrivacyLoss Phi ppf sigma 1 true (-50) q adj in monotone_pmf fuel m true disc true) = Ok p -> infinity_mass p <= 1/2 * exp (-50)).
    { intros adj p. destruct (GaussianPrivacyLoss Phi ppf sigma 1 true (-50) q adj) as [m|] eqn:Em; [|discriminate]. cbn [bind]. unfold monotone_pmf. cbn [andb]. intros Hp.
      apply (gaussian_inf Phi ppf sigma 1 (-50) q adj disc m p HPhi Hppf ltac:(lra) Hd (HG adj) Em Hp). }
    destruct (let? m := GaussianPrivacyLoss Phi ppf sigma 1 true (-50) q REMOVE in _) as [r|] eqn:Er; [|discriminate]. cbn [bind] in HD.
    destruct (Reqb q 1); [injection HD as <-; cbn; split; apply (K _ _ Er)|].
    destruct (let? m := GaussianPrivacyLoss Phi ppf sigma 1 true (-50) q ADD in _) as [a|] eqn:Ea; [|discriminate]. injection HD as <-. split; [apply (K _ _ Er) | apply (K _ _ Ea)].
  Qed.

  Lemma exp_50 : 1/2 * exp (-50) <= / (2 * 10 ^ 20).
  Proof.
    assert (H : 10 ^ 20 <= exp 50).
    { assert (A : 64/25 <= exp 1).
      { replace 1 with (1/8 + 1/8 + (1/8 + 1/8) + (1/8 + 1/8 + (1/8 + 1/8))) by lra. rewrite !exp_plus. pose proof (exp_ineq1 (1/8) ltac:(lra)) as B. set (x := exp (1/8)) in *.
        assert (81/64 <= x * x) by nra. assert (6561/4096 <= (x * x) * (x * x)) by nra. nra. }
      replace 50 with (INR 50 * 1) by (cbn; lra). assert (EP : forall n, exp (INR n * 1) = exp 1 ^ n).
      { induction n as [|n IH]; [rewrite Rmult_0_l; apply exp_0|]. rewrite S_INR, Rmult_plus_distr_r, exp_plus, IH, Rmult_1_l. cbn. ring. }
      rewrite EP. apply Rle_trans with ((64/25) ^ 50); [|apply pow_incr; lra]. 
      replace 50%nat with (5 * 10)%nat by reflexivity. replace 20%nat with (2 * 10)%nat by reflexivity. rewrite !pow_mult. apply pow_incr. lra. }
    replace (-50) with (- (50)) by lra. rewrite exp_Ropp. assert (P : 0 < 10 ^ 20) by (apply pow_lt; lra).
    rewrite Rinv_mult by lra. apply Rmult_le_compat; try lra; [left; apply Rinv_0_lt_compat, exp_pos | apply Rinv_le_contravar; assumption].
  Qed.
  Lemma bernoulli x n : 0 <= x <= 1 -> 1 - INR n * x <= (1 - x) ^ n.
  Proof.
    intros H. induction n as [|n IH]; [cbn; lra|]. rewrite S_INR. cbn [pow]. pose proof (pos_INR n).
    assert (0 <= INR n * (x * x)) by (apply Rmult_le_pos; nra). 
    apply Rle_trans with ((1 - x) * (1 - INR n * x)); [nra | apply Rmult_le_compat_l; lra].
  Qed.
  Lemma small_inf x n : 0 <= x <= / (2 * 10 ^ 20) -> (n <= 10 ^ 20)%Z -> 2 * default_tail <= (1 - x) ^ Z.to_nat n.
  Proof.
    intros Hx Hn. assert (P : 0 < 10 ^ 20) by (apply pow_lt; lra). assert (X1 : x <= 1).
    { assert (/ (2 * 10 ^ 20) <= / 1); [|lra]. apply Rinv_le_contravar; [lra|]. assert (1 <= 10 ^ 20) by (apply pow_R1_Rle; lra). lra. }
    eapply Rle_trans; [|apply bernoulli; lra].
    assert (IN : INR (Z.to_nat n) <= 10 ^ 20).
    { rewrite INR_IZR_INZ. replace (10 ^ 20) with (IZR (10 ^ 20)) by (rewrite (pow_IZR 10 20); reflexivity). apply IZR_le. lia. }
    pose proof (pos_INR (Z.to_nat n)).
    assert (INR (Z.to_nat n) * x <= 10 ^ 20 * / (2 * 10 ^ 20)) by (apply Rmult_le_compat; lra).
    replace (10 ^ 20 * / (2 * 10 ^ 20)) with (/ 2) in H0 by (field; lra). unfold default_tail.
    assert (1 / 10 ^ 15 <= / 10); [|lra]. unfold Rdiv. rewrite Rmult_1_l. apply Rinv_le_contravar; [lra|]. replace 10 with (10 ^ 1) at 1 by ring. apply Rle_pow; [lra | lia].
  Qed.
  Lemma no_inf n : 2 * default_tail <= (1 - 0) ^ Z.to_nat n.
  Proof. replace (1 - 0) with 1 by ring. rewrite pow1. unfold default_tail. assert (1 / 10 ^ 15 <= / 10); [|lra]. unfold Rdiv. rewrite Rmult_1_l. apply Rinv_le_contravar; [lra|]. replace 10 with (10 ^ 1) at 1 by ring. apply Rle_pow; [lra | lia]. Qed.

  Lemma noisy_bounds law sigma q D E : 0 < sigma -> 0 < q <= 1 -> (forall E, scaled_query (law sigma) q E -> pld_bounds D E) -> noisy law sigma q E -> pld_bounds D E.
  Proof. intros Hs Hq H [[-> _]|[_ [[-> _]|[_ HE]]]]; try lra. apply H, HE. Qed.

  Lemma noise_sound r : noise_run disc r -> run_sound gp lp mixture_pld rel default_tail mech r.
  Proof.
    destruct r as [a n]. destruct a as [ | | | p k | x | x | e c | es | p e | a b e | a b e | sg l | e m sh | sd sens probs ];
      cbn [noise_run run_sound]; try (intros; exact Logic.I).
    - intros ->. split; [reflexivity|]. intros E (x & H1 & _ & H2). exists x. auto.
    - intros _ D HD. cbn [noise_event]. destruct (Z.ltb_spec 0 n) as [Hn|Hn].
      + assert (Pn : 0 < IZR n) by (apply IZR_lt; exact Hn). pose proof (sqrt_lt_R0 _ Pn) as Ps.
        destruct (nval x) as [sigma| | |] eqn:Ex; cbn [xdiv] in HD; try discriminate HD; try (rewrite Rltb_false in HD by lra; discriminate HD). rewrite Reqb_false in HD by lra. cbn [gaussian_pld_of] in HD.
        destruct (gaussian_sound (sigma / sqrt (IZR n)) 1 D (grid_clear_1 disc) HD) as (S & B & _). destruct (gaussian_inv _ _ _ HD) as [Hs _]. split; [exact S|].
        assert (Hs' : 0 < sigma) by (replace sigma with (sigma / sqrt (IZR n) * sqrt (IZR n)) by (field; lra); apply Rmult_lt_0_compat; assumption).
        assert (EN : IZR n = INR (Z.to_nat n)) by (rewrite INR_IZR_INZ; f_equal; lia). rewrite EN in *.
        intros E HE. destruct (gaussian_interaction Phi HPhi sigma (Z.to_nat n) E Hs' ltac:(lia)) as [G1 G2].
        * eapply interaction_le; [exact HE | apply repeat_le]. intros F (s' & Es & HF). try rewrite Ex in Es. injection Es as <-.
          destruct HF as [[? _]|[_ [[? _]|[_ HF]]]]; try lra. exact HF.
        * apply (bounds_query Phi (sigma / sqrt (INR (Z.to_nat n))) D E Hs G1 G2 B).
      + exfalso. rewrite sqrt_neg_0 in HD by (apply IZR_le; exact Hn).
        destruct (nval x) as [sigma| | |]; cbn [xdiv] in HD; try discriminate HD; try (rewrite Rltb_false in HD by lra; discriminate HD).
        rewrite Reqb_true in HD by reflexivity. destruct (Rltb 0 sigma); [discriminate HD|]. destruct (Rltb sigma 0); discriminate HD.
    - intros _ D HD. cbn [noise_event]. destruct (nval x) as [b| | |] eqn:Ex; try discriminate HD. cbn [laplace_pld_of] in HD.
      destruct (laplace_sound b 1 D (grid_clear_1 disc) HD) as (S & B & I1 & I2). destruct (laplace_inv _ _ _ HD) as [Hb _].
      split; [exact S|]. split; [|rewrite I1, I2; split; apply no_inf].
      intros E (b' & Eb & HE). try rewrite Ex in Eb. injection Eb as <-. apply (noisy_bounds laplace_law b 1 D E Hb ltac:(lra) B HE).
    - destruct e; try (intros; exact Logic.I).
      + intros [HG Hn]. split.
        * intros Q E (q & sigma & Eq & Es & HE). rewrite Q in Eq. injection Eq as <-. destruct HE as [[_ H]|[H _]]; [exact H | lra].
        * intros D HD. cbn [noise_event]. destruct (nval noise_multiplier) as [sigma| | |] eqn:Ex; try discriminate HD. destruct (nval p) as [q| | |] eqn:Ep; try discriminate HD. cbn [gaussian_pld_of] in HD.
          destruct (gaussian_inv _ _ _ HD) as [Hs Hq]. destruct (gaussian_sound sigma q D (HG q eq_refl Hq) HD) as (S & B & I1 & I2).
          split; [exact S|]. split.
          -- intros E (q2 & s2 & Eq & Es & HE). try rewrite Ep in Eq. injection Eq as <-. try rewrite Ex in Es. injection Es as <-. apply (noisy_bounds (normal_law Phi) sigma q D E Hs Hq B HE).
          -- pose proof exp_50 as X. destruct S as ((W1 & _) & (W2 & _) & _). pose proof W1 as (_ & J1 & _). pose proof W2 as (_ & J2 & _).
             split; apply small_inf; try assumption; lra.
      + intros HG. split.
        * intros Q E (q & sigma & Eq & Es & HE). rewrite Q in Eq. injection Eq as <-. destruct HE as [[_ H]|[H _]]; [exact H | lra].
        * intros D HD. cbn [noise_event]. destruct (nval noise_multiplier) as [b| | |] eqn:Ex; try discriminate HD. destruct (nval p) as [q| | |] eqn:Ep; try discriminate HD. cbn [laplace_pld_of] in HD.
          destruct (laplace_inv _ _ _ HD) as [Hs Hq]. destruct (laplace_sound b q D (HG q eq_refl Hq) HD) as (S & B & I1 & I2).
          split; [exact S|]. split; [|rewrite I1, I2; split; apply no_inf].
          intros E (q2 & s2 & Eq & Es & HE). try rewrite Ep in Eq. injection Eq as <-. try rewrite Ex in Es. injection Es as <-. apply (noisy_bounds laplace_law b q D E Hs Hq B HE).
    - contradiction.
  Qed.

  Lemma noisy_event_valid law sigma q E : (forall b, 0 < b -> is_cdf (law b)) -> noisy law sigma q E -> valid E.
  Proof.
    intros HC [[_ [V _]]|[Hq [[_ V]|[Hs (s & P & HE)]]]]; try exact V.
    apply (noisy_valid any_value (fun x => law sigma (x / s)) q s E); try assumption.
    destruct (HC sigma Hs) as (A1 & A2 & A3 & A4). split; [intros; apply A1|]. split; [|split].
    - intros x y L. apply A2. apply Rmult_le_compat_r; [left; apply Rinv_0_lt_compat|]; assumption.
    - intros e He. destruct (A3 e He) as [x Hx]. exists (x * s). replace (x * s / s) with x by (field; lra). exact Hx.
    - intros e He. destruct (A4 e He) as [x Hx]. exists (x * s). replace (x * s / s) with x by (field; lra). exact Hx.
  Qed.
  Lemma normal_law_cdf b : 0 < b -> is_cdf (normal_law Phi b).
  Proof. intros Hb. exact (gaussian_is_cdf Phi b HPhi Hb). Qed.
  Lemma laplace_law_cdf b : 0 < b -> is_cdf (laplace_law b).
  Proof. intros Hb. exact (laplace_is_cdf b Hb). Qed.
  Lemma noise_valid a E : mech a E -> valid E.
  Proof.
    destruct a; cbn [noise_event]; try contradiction; try tauto.
    - intros (x & _ & H1 & H). apply (rr_pair_valid _ _ _ _ H1 H).
    - intros (b & _ & H). apply (noisy_event_valid _ _ _ _ normal_law_cdf H).
    - intros (b & _ & H). apply (noisy_event_valid _ _ _ _ laplace_law_cdf H).
    - destruct a; try contradiction; intros (q & b & _ & _ & H); [apply (noisy_event_valid _ _ _ _ normal_law_cdf H) | apply (noisy_event_valid _ _ _ _ laplace_law_cdf H)].
  Qed.

  Theorem noise_accountant_sound A0 h A E : pld_new disc = Ok A0 -> runs mc A0 h A -> pos_history h ->
    Forall (noise_run disc) (history_runs h) -> interaction (run_classes mech (history_runs h)) E ->
    (forall eps, dp_both E eps (pldacc_delta (acc_state A) (Fin eps))) /\
    (forall delta e, pldacc_epsilon (acc_state A) delta = Ok (Fin e) -> dp_both E e delta).
  Proof.
    intros N H P R HE. pose proof default_tail_pos as T.
    apply (pld_accountant_sound gp lp mixture_pld fast_len rel disc default_tail mech Hf T Hd A0 h A E N H P); [|apply noise_valid | assumption].
    eapply Forall_impl; [|exact R]. intros r. apply noise_sound.
  Qed.
End Acc.
