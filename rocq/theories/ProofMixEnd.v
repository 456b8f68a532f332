(** The methods of the mixture class, for the sensitivities and probabilities it is given. *)
From Coq Require Import Lra.
From Verif Require Import Base XReal Exn PyDict TypesAdjacency ModelPmf ModelPld ModelMake ModelMech ModelSearch ModelMixture SpecDP SpecPmf SpecPld SpecMech SpecMake SpecClasses SpecConstruct SpecSearch SpecNoiseAcc SpecMixture
  ProofDP ProofPeak ProofTailClasses ProofSearch ProofConstructEx ProofShapeGauss ProofMix ProofMixLaw ProofMixInv ProofMixDelta ProofMixDom ProofMixPld ProofMixTotal ProofMixRef.
Local Arguments Rltb : simpl never.
Local Arguments Rleb : simpl never.
Local Arguments Reqb : simpl never.

Lemma nearly_ext P P' Q Q' eps d err : (forall x, P x = P' x) -> (forall x, Q x = Q' x) -> nearly_divergence P Q eps d err -> nearly_divergence P' Q' eps d err.
Proof.
  intros HP HQ. assert (X : forall cuts, observe P Q cuts = observe P' Q' cuts).
  { intros cuts. assert (K : forall (F G : R -> R), (forall x, F x = G x) -> forall e, at_end F e = at_end G e) by (intros F G H [x| | |]; cbn; [apply H | reflexivity | reflexivity | reflexivity]).
    unfold observe. f_equal; apply FunctionalExtensionality.functional_extensionality; intros c; rewrite !(K _ _ HP) || rewrite !(K _ _ HQ); reflexivity. }
  intros (A & cuts & S & B). split; [intros c Sc; rewrite <- X; apply A, Sc | exists cuts; split; [exact S | rewrite <- X; exact B]].
Qed.

Lemma ok_inj {A} (a b : A) : Ok a = Ok b -> a = b.
Proof. intros [= ->]. reflexivity. Qed.

Section End.
  Context (Phi : R -> R) (HPhi : normal_cdf Phi) (sigma : R) (sens probs : list R) (lb : R) (comps : list (R * R)).
  Hypothesis EN : new_mixture sigma sens probs lb = Ok comps.
  Hypothesis HT : rsum (fun p => p) probs = 1.
  Notation given := (combine sens probs).
  Lemma kept_one : one_sensitivity given -> one_sensitivity comps.
  Proof. destruct (new_mixture_ok _ _ _ _ _ EN HT) as (_ & _ & _ & EC & _). intros O c c' I I'. rewrite EC in I, I'. apply filter_In in I as (I & _). apply filter_In in I' as (I' & _). apply O; assumption. Qed.
  Lemma kept_part : positive_part comps = positive_part given.
  Proof. destruct (new_mixture_ok _ _ _ _ _ EN HT) as (_ & _ & _ & EC & _). rewrite EC. apply drop_positive. Qed.
  Lemma kept_max smax : (forall s, In s sens -> s <= smax) -> forall c, In c comps -> fst c <= smax.
  Proof. destruct (new_mixture_ok _ _ _ _ _ EN HT) as (_ & _ & _ & EC & _). intros H [s p] I. rewrite EC in I. apply filter_In in I as (I & _). apply in_combine_l in I. apply H, I. Qed.
  Lemma kept_upper adj F x : mixture_upper adj F comps x = mixture_upper adj F given x.
  Proof. destruct (new_mixture_ok _ _ _ _ _ EN HT) as (_ & _ & _ & EC & _). rewrite EC. apply drop_upper. Qed.
  Lemma kept_lower adj F x : mixture_lower adj F comps x = mixture_lower adj F given x.
  Proof. destruct (new_mixture_ok _ _ _ _ _ EN HT) as (_ & _ & _ & EC & _). rewrite EC. apply drop_lower. Qed.

  Lemma mixture_loss adj x : mx_loss sigma comps adj x = ln (mixture_upper adj (gaussian_density sigma) given x / mixture_lower adj (gaussian_density sigma) given x).
  Proof.
    destruct (new_mixture_ok _ _ _ _ _ EN HT) as (Hs & _ & _ & EC & ok & total & some & _). rewrite <- kept_upper, <- kept_lower, (mx_loss_eq sigma Hs comps ok total).
    assert (G : 0 < gaussian_density sigma x) by apply exp_pos. pose proof (rho_pos sigma comps ok total) as RP.
    assert (K : forall y, rsum (fun c => snd c * gaussian_density sigma (y + fst c)) comps = rho sigma comps y * gaussian_density sigma y).
    { intros y. unfold rho. rewrite <- rsum_scal_r. apply rsum_ext. intros c _. rewrite Rmult_assoc. f_equal. unfold gaussian_density, term. rewrite <- exp_plus. f_equal. field. lra. }
    destruct adj; cbn [mloss mixture_upper mixture_lower].
    - assert (E : mixed (gaussian_density sigma) comps x = rho sigma comps (- x) * gaussian_density sigma x).
      { replace (gaussian_density sigma x) with (gaussian_density sigma (- x)) by (unfold gaussian_density; f_equal; f_equal; ring). rewrite <- K. apply rsum_ext. intros c _. f_equal. unfold gaussian_density. f_equal. f_equal. ring. }
      rewrite E. specialize (RP (- x)). rewrite <- ln_Rinv by exact RP. f_equal. field. lra.
    - assert (E : mixed (gaussian_density sigma) (minus_shift comps) x = rho sigma comps x * gaussian_density sigma x).
      { rewrite <- K. unfold mixed. rewrite minus_shift_sum. apply rsum_ext. intros c _. cbn [fst snd]. do 2 f_equal. ring. }
      rewrite E. f_equal. field. lra.
  Qed.

  Lemma mixture_deltas adj fuel eps ds smax : mx_deltas Phi fuel sigma comps adj eps = Ok ds -> (forall s, In s sens -> s <= smax) -> one_sensitivity given \/ anchored adj (positive_part given) eps ->
    Forall2 (fun e d => nearly_divergence (mixture_upper adj (normal_law Phi sigma) given) (mixture_lower adj (normal_law Phi sigma) given) e d (mixture_error sigma smax (positive_part given))) eps ds.
  Proof.
    intros H HM HO. destruct (new_mixture_ok _ _ _ _ _ EN HT) as (Hs & _ & _ & EC & ok & total & some & _). rewrite <- kept_part in *.
    pose proof (deltas_ok Phi HPhi sigma Hs comps ok total some smax (kept_max smax HM) adj fuel eps ds H) as G. eapply Forall2_in; [apply G; destruct HO as [O|A]; [left; apply kept_one, O | right; exact A]|].
    intros e d _. apply nearly_ext; intros x; [apply kept_upper | apply kept_lower].
  Qed.
  Lemma mixture_delta adj fuel e d smax : mx_delta Phi fuel sigma comps adj e = Ok d -> (forall s, In s sens -> s <= smax) -> one_sensitivity given \/ match adj with REMOVE => e <= 0 | ADD => 0 <= e end ->
    nearly_divergence (mixture_upper adj (normal_law Phi sigma) given) (mixture_lower adj (normal_law Phi sigma) given) e d (mixture_error sigma smax (positive_part given)).
  Proof.
    intros H HM HO. destruct (new_mixture_ok _ _ _ _ _ EN HT) as (Hs & _ & _ & EC & ok & total & some & _). rewrite <- kept_part in *.
    pose proof (delta_ok Phi HPhi sigma Hs comps ok total some smax (kept_max smax HM) adj fuel e d H) as G. eapply nearly_ext; [| |apply G; destruct HO as [O|A]; [left; apply kept_one, O | right; exact A]].
    - intros x. apply kept_upper.
    - intros x. apply kept_lower.
  Qed.
  Lemma mixture_inverse adj fuel ls prec xs : 0 < prec -> mx_inverse_losses fuel sigma comps adj ls prec = Ok xs -> one_sensitivity given \/ anchored adj (positive_part given) ls ->
    Forall2 (fun l x => (near_end adj (positive_part given) l /\ x = match adj with ADD => MInf | REMOVE => PInf end) \/
      (exists y, x = Fin y /\ mx_loss sigma comps adj (y + prec) <= l <= mx_loss sigma comps adj (y - prec))) ls xs.
  Proof.
    intros Hp H HO. destruct (new_mixture_ok _ _ _ _ _ EN HT) as (Hs & _ & _ & EC & ok & total & some & _). rewrite <- kept_part in *.
    eapply Forall2_in; [apply (inverse_ok sigma Hs comps ok total some adj fuel ls prec xs Hp H); destruct HO as [O|A]; [left; apply kept_one, O | right; exact A]|].
    intros l x _ (G1 & G2). destruct (Classical_Prop.classic (near_end adj (positive_part comps) l)) as [N|N]; [left; split; [exact N | apply G1, N]|]. right.
    destruct (G2 N) as (y & c0 & c1 & -> & C & L & Y). exists y. split; [reflexivity|]. rewrite !(mx_loss_eq sigma Hs comps ok total).
    assert (MO : forall a b, a <= b -> mloss sigma comps adj b <= mloss sigma comps adj a).
    { intros a b AB. pose proof (rho_decreasing sigma Hs comps ok some) as RD. pose proof (rho_pos sigma comps ok total) as RP. destruct adj; cbn [mloss].
      - pose proof (RD (- b) (- a) ltac:(lra)) as K. apply ln_le_mono in K; [lra | apply RP].
      - apply ln_le_mono; [apply RP | apply RD, AB]. }
    pose proof (MO c1 (y + prec) ltac:(lra)). pose proof (MO (y - prec) c0 ltac:(lra)). lra.
  Qed.
  Lemma mixture_near_limit adj fuel eps : loss_possible adj (positive_part given) eps -> near_end adj (positive_part given) eps -> mx_delta Phi fuel sigma comps adj eps = Err ValueError.
  Proof. rewrite <- kept_part. apply (near_limit_raises Phi fuel sigma sens probs lb comps adj eps EN HT). Qed.

  Context (ppf : R -> R) (HQ : quantile_of Phi ppf).
  Lemma mixture_tail adj fuel pess t : mx_tail Phi ppf fuel sigma comps pess lb adj = Ok t ->
    let F := mixture_upper adj (normal_law Phi sigma) given in
    F (lower_x_truncation t) <= 1 / 2 * exp lb /\ 1 / 2 * exp lb <= F (lower_x_truncation t + 1 / 10 ^ 4) /\ 1 - F (upper_x_truncation t) <= 1 / 2 * exp lb /\
    tail_masses t = if pess then [(PInf, F (lower_x_truncation t)); (Fin (mx_loss sigma comps adj (upper_x_truncation t)), 1 - F (upper_x_truncation t))]
                    else [(Fin (mx_loss sigma comps adj (lower_x_truncation t)), F (lower_x_truncation t))].
  Proof.
    destruct (new_mixture_ok _ _ _ _ _ EN HT) as (Hs & Hlb & _ & EC & ok & total & some & _). intros H F.
    assert (EF : forall x, F x = upper Phi sigma comps adj x) by (intros x; unfold F; rewrite <- kept_upper; reflexivity). rewrite !EF. clear EF F.
    assert (T : 0 < 1 / 2 * exp lb <= 1 / 2) by (pose proof (exp_pos lb); pose proof (exp_at_most_1 lb Hlb); lra).
    unfold mx_tail in H. set (tm := 1 / 2 * exp lb) in *. set (z := sigma * ppf tm) in *.
    assert (EZ : law Phi sigma z = tm) by (unfold law, z; replace (sigma * ppf tm / sigma) with (ppf tm) by (field; lra); apply HQ; lra).
    assert (EM : law Phi sigma (- z) = 1 - tm) by (rewrite <- EZ; unfold law; replace (- z / sigma) with (- (z / sigma)) by (field; lra); pose proof (normal_mirror Phi HPhi (z / sigma)); lra).
    assert (LM : forall a b, a <= b -> law Phi sigma a <= law Phi sigma b) by apply (law_cdf Phi HPhi sigma Hs).
    assert (AU : forall x, law Phi sigma x <= upper Phi sigma comps REMOVE x).
    { intros x. rewrite upper_eq. replace (law Phi sigma x) with (rsum (fun c => snd c * law Phi sigma x) comps) by (rewrite rsum_scal_r, total; ring). apply rsum_le. intros c I. destruct (ok c I). apply Rmult_le_compat_l; [lra | apply LM; lra]. }
    destruct adj.
    - cbn [bind] in H. rewrite !mu_fin in H. apply ok_inj in H. subst t. cbn [lower_x_truncation upper_x_truncation tail_masses]. rewrite !upper_eq, EZ, EM. pose proof (LM z (z + 1 / 10 ^ 4) ltac:(lra)). repeat split; lra.
    - destruct (inverse_monotone_function _ _ true fuel _) as [r|] eqn:EI; [|discriminate]. cbn [bind] in H. unfold inverse_monotone_function in EI. cbn [sp_lower sp_upper sp_guess sp_tol sp_discrete xeqb bind xltb] in EI.
      destruct (Rltb_spec tm (mx_mu_upper_cdf Phi sigma comps REMOVE (Fin (z - mx_max_sens comps)))) as [C|C]; [injection EI as <-; discriminate|].
      cbn [fst snd] in EI. destruct (search_loop _ _ true fuel false _ _ _) as [lu|] eqn:ES; [|discriminate]. cbn [bind] in EI. injection EI as <-.
      destruct (sens_range comps some) as (S1 & S2 & _).
      destruct (search_loop_ok _ _ _ _ _ _ _ _ _ (fun x => upper Phi sigma comps REMOVE x <= tm) (fun y => tm <= upper Phi sigma comps REMOVE y) ES) as (x & y & -> & A1 & A2 & A3 & A4 & A5 & A6 & _).
      + lra.
      + rewrite mu_fin in C. lra.
      + rewrite <- EZ. apply AU.
      + discriminate.
      + intros m v E K. apply ok_inj in E. subst v. cbn [check xleb] in K. rewrite mu_fin in K. destruct (Rleb_spec (upper Phi sigma comps REMOVE m) tm); [assumption | discriminate].
      + intros m v E K. apply ok_inj in E. subst v. cbn [check xleb] in K. rewrite mu_fin in K. destruct (Rleb_spec (upper Phi sigma comps REMOVE m) tm); [discriminate | lra].
      + lra.
      + cbn [fst bind] in H. rewrite !mu_fin in H. apply ok_inj in H. subst t. cbn [lower_x_truncation upper_x_truncation tail_masses]. pose proof (AU (- z)) as AZ. rewrite EM in AZ.
        assert (UM : upper Phi sigma comps REMOVE y <= upper Phi sigma comps REMOVE (x + 1 / 10 ^ 4)) by (apply (upper_cdf Phi HPhi sigma Hs comps ok total REMOVE); lra).
        repeat split; lra.
  Qed.
End End.

(** ** An example *)
Definition ex_sens : list R := [0; 1; 2].
Definition ex_probs : list R := [1 / 2; 1 / 4; 1 / 4].
Lemma ex_new lb : lb <= 0 -> new_mixture 1 ex_sens ex_probs lb = Ok [(0, 1 / 2); (1, 1 / 4); (2, 1 / 4)].
Proof.
  intros H. unfold new_mixture, ex_sens, ex_probs. rewrite Rleb_false, Rltb_false by lra. cbn [length Nat.eqb negb combine filter snd]. cbv zeta. rewrite !Reqb_false by lra. cbn [negb existsb fst snd].
  rewrite !Rltb_false, !Rleb_false by lra. cbn [orb map fst]. unfold np_max. cbn [fold_left]. rewrite (Rmax_right 0 1), (Rmax_right 1 2), Reqb_false by lra. unfold isclose. cbn [rsum snd].
  rewrite Rleb_true; [reflexivity|]. replace (1 / 2 + (1 / 4 + (1 / 4 + 0)) - 1) with 0 by lra. rewrite Rabs_R0. pose proof (Rmax_l (Rabs (1 / 2 + (1 / 4 + (1 / 4 + 0)))) (Rabs 1)). pose proof (Rabs_pos (1 / 2 + (1 / 4 + (1 / 4 + 0)))). nra.
Qed.
Lemma ex_part : positive_part (combine ex_sens ex_probs) = 1 / 2.
Proof. unfold positive_part, ex_sens, ex_probs. cbn [combine filter fst]. rewrite (Rltb_false 0 0), !Rltb_true by lra. cbn [rsum snd]. lra. Qed.
Lemma ex_sum : rsum (fun p => p) ex_probs = 1.
Proof. unfold ex_probs. cbn. lra. Qed.
Lemma ex_max s : In s ex_sens -> s <= 2.
Proof. unfold ex_sens. cbn. intuition lra. Qed.
Lemma ex_anchored : anchored REMOVE (1 / 2) [0; 1].
Proof.
  pose proof (exp_ineq1_le (1 / 2)). assert (L : ln (1 - 1 / 2) <= - (1 / 2)).
  { rewrite <- (ln_exp (- (1 / 2))). apply ln_le_mono; [lra|]. pose proof (exp_ineq1_le (- (1 / 2))). lra. }
  exists 0. split; [left; reflexivity|]. split; [|lra]. split.
  - intros _. cbn. lra.
  - intros (_ & N). unfold loss_limit in N. rewrite (Rabs_right (0 - ln (1 - 1 / 2))) in N by lra. rewrite Rabs_left in N by lra. lra.
Qed.
Lemma mixture_example : exists Phi ppf lb, normal_cdf Phi /\ quantile_of Phi ppf /\ lb <= 0 /\ positive_part (combine ex_sens ex_probs) = 1 / 2 /\
  (exists fuel D, from_mixture_gaussian_mechanism Phi ppf fuel 1 ex_sens ex_probs true (1 / 10) lb true = Ok D) /\
  exists E, mixture_query (normal_law Phi 1) (combine ex_sens ex_probs) E /\ 2 <= INR (length (outs E)).
Proof.
  destruct normal_exists as (Phi & ppf & HP & HQ). assert (TP : 0 < Phi (- (2) / (2 * 1))) by (pose proof (normal_strict Phi (- (2) / (2 * 1) - 1) (- (2) / (2 * 1)) HP ltac:(lra)); pose proof HP as ((B & _) & _); pose proof (B (- (2) / (2 * 1) - 1)); lra). set (t := Phi (- (2) / (2 * 1))) in *.
  exists Phi, ppf, (Rmin 0 (ln (2 * t))). split; [exact HP|]. split; [exact HQ|]. split; [apply Rmin_l|]. split; [exact ex_part|]. split.
  - destruct (mixture_total Phi ppf 1 ex_sens ex_probs _ (1 / 10) (Rmin 0 (ln (2 * t))) 2 HP HQ ltac:(lra) (ex_new _ (Rmin_l _ _)) ex_sum ex_max) as (N & D & H).
    + right. rewrite ex_part. split; [lra|]. fold t. assert (K : exp (Rmin 0 (ln (2 * t))) <= exp (ln (2 * t))) by (apply exp_le, Rmin_r). rewrite exp_ln in K by lra. lra.
    + exists N, D. apply H. lia.
  - exists (observe (fun x => mixed (normal_law Phi 1) (combine [0; - (1); 2] (map snd (combine ex_sens ex_probs))) (x - 0)) (add_noise (normal_law Phi 1) 0) [0]). split.
    + exists 0, [0; - (1); 2], [0]. split; [|split; [repeat constructor | reflexivity]]. unfold ex_sens, ex_probs. cbn [combine]. repeat constructor; cbn [fst]; [rewrite Rabs_R0; lra | rewrite Rabs_Ropp, Rabs_R1; lra | rewrite Rabs_right; lra].
    + cbn. lra.
Qed.
Lemma list_example : new_mixture 1 ex_sens ex_probs (-10) = Ok [(0, 1 / 2); (1, 1 / 4); (2, 1 / 4)] /\
  rsum (fun p => p) ex_probs = 1 /\ (forall s, In s ex_sens -> s <= 2) /\ anchored REMOVE (positive_part (combine ex_sens ex_probs)) [0; 1].
Proof. split; [apply ex_new; lra|]. split; [exact ex_sum|]. split; [exact ex_max|]. rewrite ex_part. exact ex_anchored. Qed.
Lemma near_limit_example : let q := positive_part (combine ex_sens ex_probs) in
  loss_possible ADD q (- ln (1 - q) - 1 / 10 ^ 8) /\ near_end ADD q (- ln (1 - q) - 1 / 10 ^ 8).
Proof.
  cbv zeta. rewrite ex_part. split; [intros _; cbn; lra|]. split; [lra|]. unfold loss_limit. replace (- ln (1 - 1 / 2) - 1 / 10 ^ 8 - - ln (1 - 1 / 2)) with (- (1 / 10 ^ 8)) by ring.
  rewrite Rabs_Ropp, Rabs_right by lra. pose proof (Rabs_pos (- ln (1 - 1 / 2))). lra.
Qed.

(** ** The refutations *)
Lemma scalar_refuted Phi : normal_cdf Phi ->
  exists sigma sens probs comps eps N d,
    (forall lb, lb <= 0 -> new_mixture sigma sens probs lb = Ok comps) /\ rsum (fun p => p) probs = 1 /\
    (forall fuel, (N <= fuel)%nat -> mx_delta Phi fuel sigma comps REMOVE eps = Ok d) /\ d <= 1 / 10 /\
    exists E, mixture_query (normal_law Phi sigma) (combine sens probs) E /\ 9 / 10 <= hockey_stick E eps.
Proof.
  intros HP. destruct (scalar_wrong Phi HP) as (N & d & Hd & H). exists 1, sens3, probs3, cs3, 2800, N, d. split; [exact new3|]. split; [exact sum3|]. split; [exact H|]. split; [exact Hd|]. apply query3, HP.
Qed.
Lemma inverse_refuted :
  exists sigma sens probs comps l N y,
    (forall lb, lb <= 0 -> new_mixture sigma sens probs lb = Ok comps) /\ rsum (fun p => p) probs = 1 /\
    (forall fuel, (N <= fuel)%nat -> mx_inverse_loss fuel sigma comps REMOVE l (1 / 10 ^ 6) = Ok (Fin y)) /\
    l + 500 <= mx_loss sigma comps REMOVE y.
Proof.
  destruct inverse_wrong as (N & x & (y & -> & Hy) & H). exists 1, sens3, probs3, cs3, 2800, N, y. split; [exact new3|]. split; [exact sum3|]. split; [exact H | exact Hy].
Qed.
Lemma buckets_refuted Phi ppf : normal_cdf Phi -> quantile_of Phi ppf ->
  exists sigma sens probs disc lb N D,
    0 < disc /\ lb <= 0 /\ rsum (fun p => p) probs = 1 /\ positive_part (combine sens probs) = 1 /\
    (forall fuel, (N <= fuel)%nat -> from_mixture_gaussian_mechanism Phi ppf fuel sigma sens probs true disc lb false = Ok D) /\
    exists E eps, mixture_query (normal_law Phi sigma) (combine sens probs) E /\ ~ dp E eps (pld_delta D (Fin eps) + 3 / 4).
Proof.
  intros HP HQ. destruct (buckets_wrong Phi ppf HP HQ) as (N & D & HD & H). exists 1, sens3, probs3, 2800, (lb3 Phi), N, D. split; [lra|]. split; [apply lb_neg, HP|]. split; [exact sum3|]. split; [exact q3|]. split; [exact H|].
  destruct (query3 Phi HP) as (E & HE & G). exists E, 2800. split; [exact HE|]. intros C. apply dp_iff_hockey in C. lra.
Qed.
