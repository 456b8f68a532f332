(** The PLD accountant with all its constructors, on events of noise mechanisms and mixtures of Gaussians. *)
From Verif Require Import Base XReal Exn PyDict TypesEvent TypesRelation TypesAdjacency SpecEvent ModelBuilder ModelPmf ModelPld ModelMake ModelMech ModelNoise ModelAccountant
  ModelSearch ModelCalculator ModelMixture ModelAccMix SpecDP SpecPmf SpecPld SpecMake SpecMech SpecClasses SpecConstruct SpecMixture SpecAccountant SpecAccPld SpecNoiseAcc SpecAccErr
  ProofDP ProofPmf ProofPeak ProofNoise ProofShape ProofShapeGauss ProofAdditive ProofClasses ProofMechTop ProofConstruct ProofConstructEx ProofFindNoise ProofInfMass
  ProofAccGen ProofAccSound ProofRRRdp ProofGdpSeq ProofNoiseAcc ProofErrComp ProofAccErr ProofMixAcc ProofMixDom ProofNoiseNear.
Local Arguments Rltb : simpl never.
Local Arguments Rleb : simpl never.
Local Arguments Reqb : simpl never.

Lemma finite_values_map l m : finite_values l = Some m <-> l = map Fin m.
Proof.
  revert m. induction l as [|x l IH]; intros m; cbn [finite_values].
  - split; [intros [= <-]; reflexivity | destruct m; [reflexivity | discriminate]].
  - destruct x as [x| | |]; try (split; [discriminate | destruct m; discriminate]).
    destruct (finite_values l) as [k|].
    + destruct (IH k) as [A _]. rewrite (A eq_refl). split; [intros [= <-]; reflexivity|]. destruct m as [|y m]; [discriminate|]. intros [= -> E]. f_equal. f_equal.
      destruct (IH m) as [_ B]. specialize (B (eq_trans (A eq_refl) E)). injection B as ->. reflexivity.
    + split; [discriminate|]. destruct m as [|y m]; [discriminate|]. intros [= -> E]. destruct (IH m) as [_ B]. discriminate (B E).
Qed.
Lemma map_fin_inj l m : map Fin l = map Fin m -> l = m.
Proof. revert m. induction l as [|x l IH]; intros [|y m]; try discriminate; [reflexivity|]. intros [= -> E]. f_equal. apply IH, E. Qed.
Lemma largest_max l x : In x l -> x <= largest l.
Proof. induction l as [|y l IH]; [intros []|]. cbn. intros [->|I]; [apply Rmax_l|]. eapply Rle_trans; [apply IH, I | apply Rmax_r]. Qed.
Lemma limit_error_nonneg q : 0 <= limit_error q.
Proof.
  unfold limit_error. destruct (Rltb q 1); [|lra]. pose proof (Rabs_pos (ln (1 - q))) as A. pose proof (exp_ineq1_le (1 / 10 ^ 8 + 1 / 10 ^ 5 * Rabs (ln (1 - q)))).
  assert (0 <= 1 / 10 ^ 5 * Rabs (ln (1 - q))) by (apply Rmult_le_pos; lra). lra.
Qed.
Lemma event_error_nonneg a : 0 <= event_error a.
Proof.
  destruct a; cbn [event_error]; try lra.
  - destruct (nval sampling_probability) as [q| | |]; try lra. apply (grid_error_nonneg q).
  - destruct (nval standard_deviation); try lra. destruct (finite_values _); try lra. destruct (finite_values _); try lra.
    eapply Rle_trans; [|apply Rmax_r]. apply limit_error_nonneg.
Qed.

Section Full.
  Context (Phi ppf : R -> R) (fast_len : nat -> nat) (fuel : nat) (rel : relation) (disc : R).
  Hypothesis HPhi : normal_cdf Phi.
  Hypothesis Hppf : quantile_of Phi ppf.
  Hypothesis Hf : forall k, (k <= fast_len k)%nat.
  Hypothesis Hd : 0 < disc.
  Notation gp := (gaussian_pld_of Phi ppf fuel disc).
  Notation lp := (laplace_pld_of fuel disc).
  Notation mp := (mixture_pld_of Phi ppf fuel disc).
  Notation mc := (full_accountant Phi ppf fast_len fuel rel disc).
  Notation mech := (noise_or_mixture Phi rel).

  Lemma scaled_within e D F q E : (forall E, noisy_query any_value F q 1 E -> pld_within e D E) -> scaled_query F q E -> pld_within e D E.
  Proof.
    intros H (s & Hs & HE). destruct (scaled_iso F q s E Hs HE) as (E0 & H0 & I). eapply iso_within; [exact I | apply H, H0].
  Qed.
  Lemma noisy_within e law sigma q D E : 0 < sigma -> 0 < q <= 1 -> (forall E, noisy_query any_value (law sigma) q 1 E -> pld_within e D E) -> noisy law sigma q E -> pld_within e D E.
  Proof. intros Hs Hq H [[-> _]|[_ [[-> _]|[_ HE]]]]; try lra. apply (scaled_within e D (law sigma) q E H HE). Qed.
  Lemma mix_inf x n : 0 <= x <= 1/2 * exp (-50) -> (n <= 10 ^ 20)%Z -> 2 * default_tail <= (1 - x) ^ Z.to_nat n.
  Proof. intros Hx Hn. pose proof exp_50. apply small_inf; [lra | exact Hn]. Qed.
  Lemma zero_inf x n : 0 <= x -> x <= 0 -> 2 * default_tail <= (1 - x) ^ Z.to_nat n.
  Proof. intros H1 H2. replace x with 0 by lra. apply no_inf. Qed.
  Lemma noise_run_within r : covered_run r -> run_within gp lp mp rel default_tail mech event_error r.
  Proof.
    destruct r as [a n]. destruct a as [ | | | p k | x | x | e c | es | p e | a b e | a b e | sg l | e m sh | sd sens probs ];
      cbn [covered_run run_within]; try (intros; exact Logic.I).
    - intros ->. split; [reflexivity|]. intros E (x & H1 & _ & H2). exists x. auto.
    - intros _. apply (noise_sound Phi ppf mp fuel rel disc HPhi Hppf Hd (Gaussian x, n) Logic.I).
    - intros _ D HD. cbn [noise_or_mixture noise_event event_error]. destruct (nval x) as [b| | |] eqn:Ex; try discriminate HD. cbn [laplace_pld_of] in HD.
      destruct (laplace_within fuel b 1 disc 1 D Hd HD) as (S & B & I1 & I2). destruct (laplace_inv fuel disc b 1 D HD) as [Hb _].
      pose proof S as ((W1 & _) & (W2 & _) & _). pose proof W1 as (_ & J1 & _). pose proof W2 as (_ & J2 & _).
      split; [exact S|]. split; [|split; apply zero_inf; assumption].
      intros E (b' & Eb & HE). try rewrite Ex in Eb. injection Eb as <-. apply (noisy_within 0 laplace_law b 1 D E Hb ltac:(lra)); [|exact HE].
      intros E0 H0. specialize (B E0 H0). unfold grid_error in B. rewrite Rltb_false in B by lra. exact B.
    - destruct e; try (intros; exact Logic.I).
      + intros Hn. split.
        * intros Q E (q & sigma & Eq & Es & HE). rewrite Q in Eq. injection Eq as <-. destruct HE as [[_ H]|[H _]]; [exact H | lra].
        * intros D HD. cbn [noise_or_mixture noise_event event_error]. destruct (nval noise_multiplier) as [sigma| | |] eqn:Ex; try discriminate HD. destruct (nval p) as [q| | |] eqn:Ep; try discriminate HD. cbn [gaussian_pld_of] in HD.
          destruct (gaussian_inv Phi ppf fuel disc sigma q D HD) as [Hs Hq]. destruct (gaussian_within Phi ppf fuel sigma 1 (-50) disc q D HPhi Hppf ltac:(lra) Hd HD) as (S & B & I1 & I2).
          pose proof S as ((W1 & _) & (W2 & _) & _). pose proof W1 as (_ & J1 & _). pose proof W2 as (_ & J2 & _).
          split; [exact S|]. split; [|split; apply mix_inf; try assumption; split; assumption].
          intros E (q2 & s2 & Eq & Es & HE). try rewrite Ep in Eq. injection Eq as <-. try rewrite Ex in Es. injection Es as <-. apply (noisy_within (grid_error q) (normal_law Phi) sigma q D E Hs Hq B HE).
      + intros _. split.
        * intros Q E (q & sigma & Eq & Es & HE). rewrite Q in Eq. injection Eq as <-. destruct HE as [[_ H]|[H _]]; [exact H | lra].
        * intros D HD. cbn [noise_or_mixture noise_event event_error]. destruct (nval noise_multiplier) as [b| | |] eqn:Ex; try discriminate HD. destruct (nval p) as [q| | |] eqn:Ep; try discriminate HD. cbn [laplace_pld_of] in HD.
          destruct (laplace_inv fuel disc b q D HD) as [Hs Hq]. destruct (laplace_within fuel b 1 disc q D Hd HD) as (S & B & I1 & I2).
          pose proof S as ((W1 & _) & (W2 & _) & _). pose proof W1 as (_ & J1 & _). pose proof W2 as (_ & J2 & _).
          split; [exact S|]. split; [|split; apply zero_inf; assumption].
          intros E (q2 & s2 & Eq & Es & HE). try rewrite Ep in Eq. injection Eq as <-. try rewrite Ex in Es. injection Es as <-. apply (noisy_within (grid_error q) laplace_law b q D E Hs Hq B HE).
    - intros [Hn HC]. split.
      + destruct sens as [|x [|y l]]; try exact Logic.I. intros Ex E (sigma & ss & ps & _ & E1 & _ & HE). cbn [map] in E1. rewrite Ex in E1.
        destruct ss as [|s0 [|s1 ss]]; try discriminate. injection E1 as <-. destruct HE as [[_ HE]|[(s & [<-|[]] & N) _]]; [exact HE | contradiction].
      + intros D HD. cbn [noise_or_mixture event_error]. unfold mixture_pld_of in HD. destruct (nval sd) as [sigma| | |] eqn:Es; try discriminate HD.
        destruct (finite_values (map nval sens)) as [ss|] eqn:E1; try discriminate HD. destruct (finite_values (map nval probs)) as [ps|] eqn:E2; try discriminate HD.
        apply finite_values_map in E1. apply finite_values_map in E2. destruct (HC ss ps E1 E2) as [HT HO].
        destruct (mixture_class Phi ppf fuel sigma ss ps disc (-50) D (largest ss) HPhi Hppf Hd HD HT (largest_max ss) HO) as (Hs & S & B & I1 & I2).
        pose proof S as ((W1 & _) & (W2 & _) & _). pose proof W1 as (_ & J1 & _). pose proof W2 as (_ & J2 & _).
        split; [exact S|]. split; [|split; apply mix_inf; try assumption; split; assumption].
        intros E (sg & ss' & ps' & Es' & E1' & E2' & HE). try rewrite Es in Es'. injection Es' as <-. rewrite E1 in E1'. apply map_fin_inj in E1' as <-. rewrite E2 in E2'. apply map_fin_inj in E2' as <-.
        destruct HE as [[HZ _]|[_ [[-> _]|(_ & _ & HE)]]]; [exfalso | lra | apply B, HE].
        unfold from_mixture_gaussian_mechanism in HD. destruct (new_mixture sigma ss ps (-50)) as [comps|] eqn:EN; [|discriminate].
        destruct (ProofMixPld.new_mixture_ok _ _ _ _ _ EN HT) as (_ & _ & _ & EC & _ & _ & (c & I & P) & _). rewrite EC in I. apply filter_In in I as (I & _). destruct c as [s p]. apply in_combine_l in I. cbn [fst] in P. pose proof (HZ s I). lra.
  Qed.
  Lemma mech_valid a E : mech a E -> valid E.
  Proof.
    destruct a; try (intros H; apply (noise_valid Phi rel HPhi _ E H)).
    intros (sg & ss & ps & _ & _ & _ & [[_ [V _]]|[_ [[_ V]|(_ & V & _)]]]); exact V.
  Qed.

  Theorem full_accountant_within A0 h A E : pld_new disc = Ok A0 -> runs mc A0 h A -> pos_history h ->
    Forall covered_run (history_runs h) -> interaction (run_classes mech (history_runs h)) E ->
    (forall eps, dp_both E eps (pldacc_delta (acc_state A) (Fin eps) + total_error event_error (history_runs h))) /\
    (forall delta e, pldacc_epsilon (acc_state A) delta = Ok (Fin e) -> dp_both E e (delta + total_error event_error (history_runs h))).
  Proof.
    intros N H P R HE. pose proof default_tail_pos as T.
    apply (pld_accountant_within gp lp mp fast_len rel disc default_tail mech event_error Hf T Hd event_error_nonneg A0 h A E N H P); [|apply mech_valid | assumption].
    eapply Forall_impl; [|exact R]. intros r. apply noise_run_within.
  Qed.
End Full.
