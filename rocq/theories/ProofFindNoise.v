(** The searches for the smallest noise. *)
From Coq Require Import FunctionalExtensionality.
From Verif Require Import Base XReal Exn PyDict TypesAdjacency ModelPmf ModelPld ModelMake ModelSearch ModelSmallest ModelMech ModelNoise
  SpecDP SpecPmf SpecPld SpecMake SpecSearch SpecSmallest SpecMech SpecClasses SpecConstruct
  ProofDP ProofDict ProofPmf ProofPld ProofSelf ProofParams ProofDots ProofSearch ProofAccSound ProofAdvanced ProofSmallestEx
  ProofPeak ProofNoise ProofShape ProofShapeGauss ProofShapeInt ProofAdditive ProofClasses ProofMechTop ProofGuarantee
  ProofDotsMech ProofConstruct ProofConstructTotal ProofConstructEx.
Local Arguments Rltb : simpl never.
Local Arguments Rleb : simpl never.
Local Arguments Reqb : simpl never.

(** ** Basic composition *)
Lemma basic_composition eps n E : 0 <= eps -> interaction (repeat (private eps 0) n) E -> dp_both E (INR n * eps) 0.
Proof.
  intros He HI. apply (advanced_dp eps 0 n); [assumption | lra | assumption|].
  pose proof (kcurve_grid eps 0 (Z.of_nat n) 0 He ltac:(lia) ltac:(lia)) as K. rewrite delta_i_0, Nat2Z.id in K.
  unfold grid in K. change (INR 0) with 0 in K.
  replace (INR n * eps) with (eps * (IZR (Z.of_nat n) - 2 * 0)) by (rewrite INR_IZR_INZ; ring). rewrite K.
  replace (1 - 0) with 1 by ring. rewrite pow1. lra.
Qed.

Lemma unamplified_1 eps : unamplified 1 eps = eps.
Proof. unfold unamplified. replace (1 + (exp eps - 1) / 1) with (exp eps) by field. apply ln_exp. Qed.
Lemma laplace_pure b s eps E : 0 < b -> 0 < s -> s / b <= eps -> noisy_query any_value (laplace_law b) 1 s E -> dp_both E eps 0.
Proof.
  intros Hb Hs He. assert (0 < s / b) by (apply Rdiv_lt_0_compat; assumption).
  apply (pure_guarantee any_value _ 1 s _ eps E (laplace_family b Hb) (laplace_shape b Hb s (Rlt_le _ _ Hs)) ltac:(lra) Logic.I ltac:(lra)).
  intros l Hl x Nx. rewrite unamplified_1 in Hl. apply laplace_bounded; (assumption || lra).
Qed.
Lemma dlaplace_pure a s eps E : 0 < a -> (0 < s)%Z -> IZR s * a <= eps -> noisy_query integer_value (dlaplace_law a) 1 (IZR s) E -> dp_both E eps 0.
Proof.
  intros Ha Hs He. pose proof (IZR_lt _ _ Hs) as Hs'. assert (0 < IZR s * a) by (apply Rmult_lt_0_compat; assumption).
  apply (pure_guarantee integer_value _ 1 (IZR s) _ eps E (dlaplace_family a Ha) (dlaplace_shape a Ha s ltac:(lia)) ltac:(lra) (ex_intro _ s eq_refl) ltac:(lra)).
  intros l Hl x Nx. rewrite unamplified_1 in Hl. apply dlaplace_bounded; (assumption || lia || lra).
Qed.

(** noisy queries are computations *)
Lemma noisy_valid ok F q s E : is_cdf F -> 0 < q <= 1 -> noisy_query ok F q s E -> valid E.
Proof.
  intros HF Hq (v & d & cuts & _ & _ & _ & SC & ->).
  assert (S : forall w, is_cdf (add_noise F w)).
  { intros w. assert (E : add_noise F w = (fun x => F (x + - w))) by (apply functional_extensionality; intros x; unfold add_noise; f_equal; ring).
    rewrite E. apply cdf_shift, HF. }
  apply observe_valid; [|apply S | assumption].
  pose proof (S v) as (A1 & A2 & A3 & A4). pose proof (S (v + d)) as (B1 & B2 & B3 & B4). unfold sampled. split; [|split; [|split]].
  - intros x. specialize (A1 x). specialize (B1 x). nra.
  - intros x y L. specialize (A2 x y L). specialize (B2 x y L). nra.
  - intros e He. destruct (A3 e He) as [x Hx]. destruct (B3 e He) as [y Hy]. exists (Rmin x y).
    pose proof (A2 _ _ (Rmin_l x y)). pose proof (B2 _ _ (Rmin_r x y)). nra.
  - intros e He. destruct (A4 e He) as [x Hx]. destruct (B4 e He) as [y Hy]. exists (Rmax x y).
    pose proof (A2 _ _ (Rmax_l x y)). pose proof (B2 _ _ (Rmax_r x y)). nra.
Qed.
Lemma pure_repeated ok F s eps n E : is_cdf F -> 0 < eps -> (0 < n)%nat ->
  (forall E, noisy_query ok F 1 s E -> dp_both E (eps / INR n) 0) ->
  interaction (repeat (noisy_query ok F 1 s) n) E -> dp_both E eps 0.
Proof.
  intros HF He Hn H HI. pose proof (lt_0_INR n Hn) as Pn.
  assert (EE : eps = INR n * (eps / INR n)) by (field; lra). rewrite EE.
  apply basic_composition; [apply Rlt_le, Rdiv_lt_0_compat; assumption|].
  eapply interaction_le; [exact HI | apply repeat_le]. intros G HG. split; [apply (noisy_valid ok F 1 s G HF ltac:(lra) HG) | apply H, HG].
Qed.
Lemma dp_both_weaken E eps d d' : d <= d' -> dp_both E eps d -> dp_both E eps d'.
Proof. intros L [H1 H2]. split; intros S; [specialize (H1 S) | specialize (H2 S)]; lra. Qed.

(** ** Soundness *)
Lemma search_up_to_ok u : 0 <= u -> search_ok 0 (Fin u) None (1 / 10 ^ 7) false.
Proof. intros H. split; [lra|]. split; [assumption|]. split; [exact Logic.I | discriminate]. Qed.
Lemma default_tail_pos : 0 <= default_tail.
Proof. unfold default_tail. lra. Qed.

Lemma laplace_noise_sound fast_len fuel eps delta pp n s x : (forall k, (k <= fast_len k)%nat) ->
  privacy_parameters eps delta = Ok pp -> (1 <= n)%Z -> 0 < s ->
  smallest_laplace_noise fast_len fuel pp n s = Ok x ->
  exists b, x = Fin b /\ 0 < b <= IZR n * s / eps /\
    forall E, interaction (repeat (noisy_query any_value (laplace_law b) 1 s) (Z.to_nat n)) E -> dp_both E eps delta.
Proof.
  intros Hf HP Hn Hs. destruct (params_inv _ _ _ HP) as (-> & He & Hd). unfold smallest_laplace_noise. cbn [fst].
  destruct (Reqb_spec eps 0) as [|He']; [discriminate|]. assert (He0 : 0 < eps) by lra.
  pose proof (IZR_le _ _ Hn) as Hn'. assert (U : 0 < IZR n * s / eps) by (apply Rdiv_lt_0_compat; [apply Rmult_lt_0_compat; lra | assumption]).
  destruct (smallest_parameter _ _ _ _ _ _ _) as [[x0|]|] eqn:HS; cbn [bind]; [| |discriminate]; intros [= <-].
  - destruct (smallest_parameter_sound fast_len default_tail fuel eps delta n (laplace_for fuel eps n s)
      (fun b => noisy_query any_value (laplace_law b) 1 s) 0 (Fin (IZR n * s / eps)) None (1 / 10 ^ 7) false x0 Hf default_tail_pos
      (search_up_to_ok _ (Rlt_le _ _ U))) as (b & -> & [R1 R2] & [D HD] & S & _).
    + intros b D _ HD. unfold laplace_for in HD. rewrite (proj2 (Z.eqb_neq n 0)) in HD by lia.
      assert (Hdisc : 0 < 1/10 * eps / IZR n) by (apply Rdiv_lt_0_compat; lra).
      apply (constructed_sound fuel true (1/10 * eps / IZR n) 1 D any_value (laplace_law b) s Hdisc (grid_clear_1 _)).
      assert (Hb : 0 < b).
      { unfold from_laplace_mechanism, subsampled_pld, LaplacePrivacyLoss in HD. destruct (Rleb_spec b 0); [discriminate | lra]. }
      apply (by_laplace fuel true true _ 1 (Ok D) b s Hb Hs HD).
    + exact HS.
    + exists b. split; [reflexivity|]. split; [|exact S]. apply xleb_fin in R2. split; [|assumption].
      unfold laplace_for in HD. rewrite (proj2 (Z.eqb_neq n 0)) in HD by lia.
      unfold from_laplace_mechanism, subsampled_pld, LaplacePrivacyLoss in HD. destruct (Rleb_spec b 0); [discriminate | lra].
  - set (b := IZR n * s / eps) in *. exists b. split; [reflexivity|]. split; [lra|]. intros E HI. apply (dp_both_weaken E eps 0); [lra|].
    apply (pure_repeated any_value (laplace_law b) s eps (Z.to_nat n) E); [apply (laplace_shape b U s (Rlt_le _ _ Hs)) | assumption | lia | | exact HI].
    intros G. apply laplace_pure; [assumption | assumption |]. right. rewrite INR_IZR_INZ, Z2Nat.id by lia. unfold b. field. lra.
Qed.

Lemma discrete_laplace_noise_sound fast_len fuel eps delta pp n s x F : (forall k, (k <= fast_len k)%nat) ->
  privacy_parameters eps delta = Ok pp -> (1 <= n)%Z -> (0 < s)%Z ->
  smallest_discrete_laplace_noise fast_len fuel pp n s = Ok x ->
  exists a, x = Fin a /\ eps / (IZR n * IZR s) <= a /\
    (integer_noise (dlaplace_weights a) F ->
     forall E, interaction (repeat (noisy_query integer_value F 1 (IZR s)) (Z.to_nat n)) E -> dp_both E eps delta).
Proof.
  intros Hf HP Hn Hs. destruct (params_inv _ _ _ HP) as (-> & He & Hd). unfold smallest_discrete_laplace_noise. cbn [fst].
  destruct (Reqb_spec eps 0) as [|He']; [discriminate|]. assert (He0 : 0 < eps) by lra.
  pose proof (IZR_le _ _ Hn) as Hn'. pose proof (IZR_lt _ _ Hs) as Hs'. assert (NS : 0 < IZR n * IZR s) by (apply Rmult_lt_0_compat; lra).
  assert (U : 0 < IZR n * IZR s / eps) by (apply Rdiv_lt_0_compat; lra).
  destruct (smallest_parameter _ _ _ _ _ _ _) as [r|] eqn:HS; cbn [bind]; [|discriminate]. destruct r as [x0|].
  - destruct (smallest_parameter_sound fast_len default_tail fuel eps delta n (discrete_laplace_for fuel s)
      (fun i => noisy_query integer_value (dlaplace_law (1 / i)) 1 (IZR s)) 0 (Fin (IZR n * IZR s / eps)) None (1 / 10 ^ 7) false x0 Hf default_tail_pos
      (search_up_to_ok _ (Rlt_le _ _ U))) as (i & -> & [R1 R2] & [D HD] & S & _).
    + intros i D [I1 I2] HD. unfold discrete_laplace_for in HD. destruct (Reqb_spec i 0); [discriminate|]. assert (Hi : 0 < i) by lra.
      assert (Ha : 0 < 1 / i) by (apply Rdiv_lt_0_compat; lra).
      apply (constructed_sound fuel true (1 / i) 1 D integer_value (dlaplace_law (1 / i)) (IZR s) Ha (grid_clear_1 _)).
      apply (by_discrete_laplace fuel true true _ 1 (Ok D) (1 / i) s _ (dlaplace_noise _ Ha) Ha Hs HD).
    + exact HS.
    + unfold discrete_laplace_for in HD. destruct (Reqb_spec i 0); [discriminate|]. assert (Hi : 0 < i) by lra. intros [= <-]. apply xleb_fin in R2.
      exists (1 / i). split; [reflexivity|]. assert (Ha : 0 < 1 / i) by (apply Rdiv_lt_0_compat; lra). split.
      * apply (Rmult_le_reg_r i); [assumption|]. replace (1 / i * i) with 1 by (field; lra).
        apply (Rmult_le_reg_r (IZR n * IZR s / eps)); [assumption|].
        replace (eps / (IZR n * IZR s) * i * (IZR n * IZR s / eps)) with i by (field; lra). lra.
      * intros HF. assert (F = dlaplace_law (1 / i)) as -> by (apply functional_extensionality, (integer_noise_unique (dlaplace_weights (1 / i))); [exact HF | apply dlaplace_noise, Ha]).
        exact S.
  - rewrite (proj2 (Z.eqb_neq (n * s) 0)) by nia. intros [= <-]. set (a := eps / (IZR n * IZR s)) in *.
    assert (Ha : 0 < a) by (apply Rdiv_lt_0_compat; assumption). exists a. split; [reflexivity|]. split; [lra|]. intros HF.
    assert (F = dlaplace_law a) as -> by (apply functional_extensionality, (integer_noise_unique (dlaplace_weights a)); [exact HF | apply dlaplace_noise, Ha]).
    intros E HI. apply (dp_both_weaken E eps 0); [lra|].
    apply (pure_repeated integer_value (dlaplace_law a) (IZR s) eps (Z.to_nat n) E); [apply (dlaplace_shape a Ha s ltac:(lia)) | assumption | lia | | exact HI].
    intros G. apply dlaplace_pure; [assumption | assumption |]. right. rewrite INR_IZR_INZ, Z2Nat.id by lia. unfold a. field. lra.
Qed.
