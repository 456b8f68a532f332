(** The search for the smallest Gaussian noise returns. *)
From Coq Require Import FunctionalExtensionality.
From Verif Require Import Base XReal Exn TypesAdjacency SpecDP SpecPmf SpecPld SpecMech SpecClasses SpecConstruct SpecSearch SpecNoiseAcc ModelPmf ModelPld ModelMake ModelSearch ModelSmallest ModelMech ModelNoise
  ProofDP ProofShape ProofShapeGauss ProofPeak ProofNormal ProofGdp ProofGdpSeq ProofSearch
  ProofClasses ProofMechTop ProofConstruct ProofConstructEx ProofGuarantee ProofAdvanced ProofSmallestEx ProofSelf ProofFindNoise ProofFindTotal ProofInfMass ProofNoiseAcc ProofPmf ProofGaussNoise.
Local Open Scope R_scope.
Local Arguments Rltb : simpl never.
Local Arguments Rleb : simpl never.
Local Arguments Reqb : simpl never.

(** ** A search that evaluates its function at positive points only *)
Section Eq.
  Context (func func' : xr -> res xr) (value : xr) (inc : bool) (HE : forall x, 0 < x -> func (Fin x) = func' (Fin x)).
  Lemma guess_loop_eq up : forall fuel l g, 0 < g -> guess_loop func value inc fuel up l (Fin g) = guess_loop func' value inc fuel up l (Fin g).
  Proof.
    induction fuel as [|fuel IH]; intros l g Hg; [reflexivity|]. cbn [guess_loop]. destruct (xltb (Fin g) up); [|reflexivity]. rewrite (HE g Hg).
    destruct (func' (Fin g)) as [v|]; [|reflexivity]. cbn [bind]. destruct (check value inc v); [|reflexivity]. cbn [xmul]. apply IH. lra.
  Qed.
  Lemma search_loop_eq t : 0 < t -> forall fuel l u, 0 <= l -> search_loop func value inc fuel false (Fin t) (Fin l) (Fin u) = search_loop func' value inc fuel false (Fin t) (Fin l) (Fin u).
  Proof.
    intros Ht. induction fuel as [|fuel IH]; intros l u Hl; [reflexivity|]. cbn [search_loop xsub xadd xneg xltb xdiv]. rewrite (Reqb_false 2 0) by lra.
    destruct (Rltb_spec t (u + - l)) as [L|L]; [|reflexivity]. rewrite (HE ((u + l) / 2)) by lra. destruct (func' _) as [v|]; [|reflexivity]. cbn [bind].
    destruct (check value inc v); apply IH; lra.
  Qed.
End Eq.
Lemma inverse_eq func func' value g t fuel r : (forall x, 0 < x -> func (Fin x) = func' (Fin x)) -> 0 < g -> 0 < t ->
  inverse_monotone_function func' value false fuel (params_of 0 PInf (Some g) t false) = Ok r ->
  inverse_monotone_function func value false fuel (params_of 0 PInf (Some g) t false) = Ok r.
Proof.
  intros HE Hg Ht H. unfold inverse_monotone_function, params_of in *. cbn [sp_lower sp_upper sp_guess sp_tol sp_discrete xeqb bind option_map] in *.
  rewrite (guess_loop_eq func func') by assumption. destruct (guess_loop func' value false fuel PInf (Fin 0) (Fin g)) as [lg|] eqn:G; [|exact H]. cbn [bind] in *.
  destruct (guess_loop_ok func' value false PInf 0 fuel 0 g lg G Hg ltac:(lra) ltac:(lra) (or_introl eq_refl) eq_refl) as (l1 & g1 & -> & A1 & A2 & A3 & _).
  cbn [fst snd xmin xltb] in *. rewrite (search_loop_eq func func') by assumption. exact H.
Qed.
(** More fuel does not change the result. *)
Lemma guess_fuel func value inc up : forall fuel fuel' l g r, (fuel <= fuel')%nat -> guess_loop func value inc fuel up l g = Ok r -> guess_loop func value inc fuel' up l g = Ok r.
Proof.
  induction fuel as [|fuel IH]; intros fuel' l g r L H; [discriminate|]. destruct fuel' as [|fuel']; [lia|]. cbn [guess_loop] in *.
  destruct (xltb g up); [|exact H]. destruct (func g) as [v|]; [|discriminate]. cbn [bind] in *. destruct (check value inc v); [|exact H]. apply IH; [lia | exact H].
Qed.
Lemma search_fuel func value inc disc t : forall fuel fuel' l u r, (fuel <= fuel')%nat -> search_loop func value inc fuel disc t l u = Ok r -> search_loop func value inc fuel' disc t l u = Ok r.
Proof.
  induction fuel as [|fuel IH]; intros fuel' l u r L H; [discriminate|]. destruct fuel' as [|fuel']; [lia|]. cbn [search_loop] in *.
  destruct (xltb t (xsub u l)); [|exact H]. destruct (func _) as [v|]; [|discriminate]. cbn [bind] in *. destruct (check value inc v); (apply IH; [lia | exact H]).
Qed.
Lemma inverse_fuel func value inc sp fuel fuel' r : (fuel <= fuel')%nat -> inverse_monotone_function func value inc fuel sp = Ok r -> inverse_monotone_function func value inc fuel' sp = Ok r.
Proof.
  intros L H. unfold inverse_monotone_function in *. destruct (if inc then _ else _) as [bad|]; [|discriminate]. cbn [bind] in *. destruct bad; [exact H|].
  destruct (sp_guess sp) as [g|].
  - destruct (guess_loop func value inc fuel (sp_upper sp) (sp_lower sp) g) as [lg|] eqn:G; [|discriminate]. rewrite (guess_fuel _ _ _ _ _ _ _ _ _ L G). cbn [bind] in *.
    destruct (search_loop func value inc fuel _ _ _ _) as [lu|] eqn:S; [|discriminate]. rewrite (search_fuel _ _ _ _ _ _ _ _ _ _ L S). exact H.
  - cbn [bind] in *. destruct (search_loop func value inc fuel _ _ _ _) as [lu|] eqn:S; [|discriminate]. rewrite (search_fuel _ _ _ _ _ _ _ _ _ _ L S). exact H.
Qed.

Section Total.
  Context (Phi ppf : R -> R) (HPhi : normal_cdf Phi).
  Lemma gauss_class sigma s q adj : 0 < sigma -> 0 < s -> 0 < q <= 1 -> exists m, GaussianPrivacyLoss Phi ppf sigma s true (-50) q adj = Ok m.
  Proof. intros. unfold GaussianPrivacyLoss. rewrite Rleb_false, Rltb_false by lra. rewrite check_additive_true by assumption. eexists; reflexivity. Qed.
  Lemma delta_total sigma s q eps : 0 < sigma -> 0 < s -> 0 < q <= 1 -> 0 < eps ->
    exists d, delta_for_sigma Phi ppf s q eps (Fin sigma) = Ok (Fin d) /\ d <= test Phi (s / sigma) 1 (exp eps) (thr (s / sigma) 1 (exp eps)).
  Proof.
    intros Hs Hn Hq He. cbn [delta_for_sigma].
    destruct (gauss_class sigma s q REMOVE Hs Hn Hq) as [m Em]. rewrite Em. cbn [bind].
    destruct (mech_delta _ _ _ _ _ _ _ (gaussian_noise m Phi ppf sigma s true (-50) q REMOVE HPhi Em) eps (remove_away q eps Hq He)) as (d & Ed & _ & cuts & SC & Dd).
    exists d. split; [exact Ed|]. rewrite <- Dd, hockey_hs. cbn [upper_law lower_law].
    assert (HE : noisy_query any_value (fun y => Phi (y / sigma)) q s (observe (remove_upper (gaussian_law Phi sigma) q s) (gaussian_law Phi sigma) cuts)).
    { apply (extreme_remove any_value (gaussian_law Phi sigma) q s cuts (gaussian_family Phi sigma HPhi Hs)); [exact Logic.I | assumption | assumption]. }
    destruct (sampled_gdom Phi HPhi sigma s q _ Hs Hn Hq HE) as [[_ G] _]. apply G; [lra | apply exp_pos].
  Qed.
  Lemma test_small : exists c, 0 < c /\ forall mu eps t, 0 < mu -> 0 < eps -> test Phi mu 1 (exp eps) t <= c * mu.
  Proof.
    pose proof HPhi as (_ & c & Hc & D). exists c. split; [assumption|]. intros mu eps t Hm He. unfold test.
    assert (1 <= exp eps) by (rewrite <- exp_0; apply exp_le; lra). pose proof (phi_open Phi HPhi t).
    destruct (MVT_cor2 Phi (fun x => c * exp (- (x * x) / 2)) t (t + mu) ltac:(lra) ltac:(intros; apply D)) as (z & E & _).
    assert (exp (- (z * z) / 2) <= 1) by (rewrite <- exp_0; apply exp_le; nra). pose proof (exp_pos (- (z * z) / 2)).
    assert (Phi (t + mu) - Phi t <= c * mu); [|nra]. rewrite E. replace (t + mu - t) with mu by ring. apply Rmult_le_compat_r; [lra|].
    rewrite <- (Rmult_1_r c) at 2. apply Rmult_le_compat_l; lra.
  Qed.
  Lemma guarantee_total eps delta s q : 0 < eps -> 0 < delta <= 1 -> 0 < s -> 0 < q <= 1 ->
    succeeds (fun fuel => gaussian_from_guarantee Phi ppf fuel (eps, delta) s q).
  Proof.
    intros He Hd Hs Hq. set (guess := sqrt (2 * ln (3 / 2 / delta)) * s / eps).
    assert (G : 0 < guess).
    { unfold guess. apply Rdiv_lt_0_compat; [|lra]. apply Rmult_lt_0_compat; [|assumption]. apply sqrt_lt_R0.
      assert (0 < ln (3/2/delta)); [|lra]. rewrite <- ln_1. apply ln_increasing; [lra|].
      apply (Rmult_lt_reg_r delta); [lra|]. replace (3/2/delta * delta) with (3/2) by (field; lra). lra. }
    assert (OK : search_ok 0 PInf (Some guess) (1 / 10 ^ 7) false).
    { split; [lra|]. split; [discriminate|]. split; [lra|]. discriminate. }
    set (f := delta_for_sigma Phi ppf s q eps).
    set (f' := fun x => match x with Fin x => if Rleb x 0 then Ok PInf else f (Fin x) | y => f y end).
    assert (EQ : forall x, 0 < x -> f (Fin x) = f' (Fin x)) by (intros x Hx; unfold f'; rewrite Rleb_false by lra; reflexivity).
    destruct test_small as (c & Hc & TS).
    destruct (inverse_terminates f' (Fin delta) false 0 PInf (Some guess) (1 / 10 ^ 7) false OK ltac:(lra)) as [N HN].
    { intros x _. unfold f'. destruct (Rleb_spec x 0); [eexists; reflexivity|]. destruct (delta_total x s q eps ltac:(lra) Hs Hq He) as (d & Ed & _). exists (Fin d). exact Ed. }
    { intros _. exists (c * s / delta). intros x Hx. assert (Px : 0 < x) by (eapply Rlt_le_trans; [|exact Hx]; apply Rdiv_lt_0_compat; [nra | lra]).
      rewrite <- EQ by assumption. destruct (delta_total x s q eps Px Hs Hq He) as (d & Ed & Bd). exists (Fin d). split; [exact Ed|].
      unfold check. cbn. apply Rltb_false. eapply Rle_trans; [exact Bd|]. eapply Rle_trans; [apply TS; [apply Rdiv_lt_0_compat; assumption | assumption]|].
      apply (Rmult_le_reg_r (x / delta)); [apply Rdiv_lt_0_compat; lra|]. replace (c * (s / x) * (x / delta)) with (c * s / delta) by (field; lra). replace (delta * (x / delta)) with x by (field; lra). exact Hx. }
    destruct (HN (S N) ltac:(lia)) as [r Hr]. apply (inverse_eq f f' (Fin delta) guess (1 / 10 ^ 7) _ _ EQ G ltac:(lra)) in Hr.
    destruct (inverse_decreasing _ _ _ _ _ _ _ _ _ OK Hr) as [NN HM].
    destruct r as [x0|].
    2:{ exfalso. unfold inverse_monotone_function, params_of in Hr. cbn [sp_lower sp_upper sp_guess sp_tol sp_discrete xeqb bind option_map] in Hr.
        destruct (guess_loop f (Fin delta) false (S N) PInf (Fin 0) (Fin guess)) as [lg|]; [|discriminate]. cbn [bind] in Hr.
        destruct (search_loop _ _ _ _ _ _ _ _); discriminate. }
    destruct (HM x0 eq_refl) as (sg & -> & Rg & (v & Fv & Mv) & _).
    exists (S N), (Fin sg). intros fuel Hf. unfold gaussian_from_guarantee. rewrite (Reqb_false delta 0) by lra. rewrite (Reqb_false eps 0) by lra. fold guess. fold f.
    change (mkSearch (Fin 0) PInf (Some (Fin guess)) (Fin (1 / 10 ^ 7)) false) with (params_of 0 PInf (Some guess) (1 / 10 ^ 7) false).
    rewrite (inverse_fuel _ _ _ _ _ _ _ Hf Hr). cbn [bind]. unfold f, delta_for_sigma in Fv. destruct (GaussianPrivacyLoss Phi ppf sg s true (-50) q REMOVE); [reflexivity | discriminate].
  Qed.
  Lemma gaussian_noise_total eps delta pp n s : privacy_parameters eps delta = Ok pp -> 0 < eps -> 0 < delta -> (1 <= n)%Z -> 0 < s ->
    succeeds (fun fuel => smallest_gaussian_noise Phi ppf fuel pp n s).
  Proof.
    intros HP He Hd Hn Hs. destruct (params_inv _ _ _ HP) as (-> & _ & Hd'). unfold smallest_gaussian_noise. destruct (Z.ltb_spec n 0); [lia|].
    assert (0 < IZR n) by (apply IZR_lt; lia). apply guarantee_total; try lra. apply Rmult_lt_0_compat; [assumption | apply sqrt_lt_R0; assumption].
  Qed.

  (** ** On samples *)
  Context (Hppf : quantile_of Phi ppf).
  Lemma gaussian_built sigma s q disc fuel : 0 < sigma -> 0 < s -> 0 < q <= 1 -> 0 < disc -> grid_clear disc q ->
    exists r a o, from_gaussian_mechanism Phi ppf fuel sigma s true disc (-50) q true = Ok (new_pld r o) /\ (o = None \/ o = Some a) /\
      (proper r /\ infinity_mass r <= 1/2 * exp (-50)) /\ (proper a /\ infinity_mass a <= 1/2 * exp (-50)).
  Proof.
    intros Hs Hn Hq Hd HG.
    destruct (gaussian_constructs Phi ppf sigma s true disc (-50) q true HPhi Hppf Hs Hn ltac:(lra) Hq Hd (fun _ _ => HG)) as (N & D & HD). specialize (HD N (le_n N)).
    assert (K : forall adj m p, GaussianPrivacyLoss Phi ppf sigma s true (-50) q adj = Ok m -> dots_pmf m disc = Ok p -> proper p /\ infinity_mass p <= 1/2 * exp (-50)).
    { intros adj m p Em Hp. apply (gaussian_inf Phi ppf sigma s (-50) q adj disc m p HPhi Hppf ltac:(lra) Hd (HG adj) Em Hp). }
    unfold from_gaussian_mechanism, subsampled_pld in *.
    destruct (GaussianPrivacyLoss Phi ppf sigma s true (-50) q REMOVE) as [m|] eqn:Em; [|discriminate]. cbn [bind monotone_pmf andb] in *.
    destruct (dots_pmf m disc) as [r|] eqn:Hr; [|discriminate]. cbn [bind] in *. destruct (Reqb q 1).
    - exists r, r, None. split; [reflexivity|]. split; [auto|]. split; apply (K REMOVE m r Em Hr).
    - destruct (GaussianPrivacyLoss Phi ppf sigma s true (-50) q ADD) as [ma|] eqn:Ea; [|discriminate]. cbn [bind monotone_pmf andb] in *.
      destruct (dots_pmf ma disc) as [a|] eqn:Ha; [|discriminate]. cbn [bind] in *. exists r, a, (Some a). split; [reflexivity|]. split; [auto|].
      split; [apply (K REMOVE m r Em Hr) | apply (K ADD ma a Ea Ha)].
  Qed.
  Lemma composed_part fast_len n p : (1 <= n <= 10 ^ 20)%Z -> proper p -> infinity_mass p <= 1/2 * exp (-50) ->
    exists r, pmf_self_compose fast_len p n default_tail = Ok r.
  Proof.
    intros Hn PR I. apply proper_total in PR. destruct PR as [W T]. unfold total in T. pose proof exp_50 as X50. pose proof W as (_ & I0 & _).
    pose proof (small_inf (infinity_mass p) n ltac:(lra) ltac:(lia)) as SI.
    assert (X : / (2 * 10 ^ 20) <= / 2) by (apply Rinv_le_contravar; [lra|]; assert (1 <= 10 ^ 20) by (apply pow_R1_Rle; lra); lra).
    assert (EQ : psum p (fun _ => 1) = 1 - infinity_mass p) by lra.
    apply pmf_self_total; try assumption; try rewrite EQ; try lra; try lia.
    - apply size_positive. rewrite EQ. lra.
    - apply default_tail_pos.
    - right. unfold default_tail in *. lra.
  Qed.
  Lemma subsampled_delta fast_len fuel eps n s q sigma : (1 <= n <= 10 ^ 20)%Z -> 0 < eps -> 0 < s -> 0 < q <= 1 -> 0 < sigma ->
    grid_clear (Rmin (1 / 10 ^ 3) (1/10 * eps / IZR n)) q ->
    exists v, delta_for_parameter fast_len default_tail eps n (gaussian_for Phi ppf fuel eps n s q) (Fin sigma) = Ok v.
  Proof.
    intros Hn He Hs Hq Hsig HG. unfold delta_for_parameter, gaussian_for. rewrite (proj2 (Z.eqb_neq n 0)) by lia.
    assert (Pn : 0 < IZR n) by (apply IZR_lt; lia). set (disc := Rmin (1 / 10 ^ 3) (1/10 * eps / IZR n)) in *.
    assert (Hd : 0 < disc) by (apply Rmin_pos; [lra | apply Rdiv_lt_0_compat; lra]).
    destruct (gaussian_built sigma s q disc fuel Hsig Hs Hq Hd HG) as (r & a & o & E & O & [P1 I1] & [P2 I2]). rewrite E. cbn [bind]. unfold pld_self_compose.
    destruct (composed_part fast_len n r Hn P1 I1) as [r' Er]. destruct (composed_part fast_len n a Hn P2 I2) as [a' Ea].
    destruct O as [->| ->]; cbn [new_pld pmf_remove pmf_add symmetric]; rewrite Er; cbn [bind]; [|rewrite Ea; cbn [bind]]; eexists; reflexivity.
  Qed.
  Lemma subsampled_noise_total fast_len eps delta pp n s q : privacy_parameters eps delta = Ok pp -> 0 < eps -> 0 < delta -> (1 <= n <= 10 ^ 20)%Z -> 0 < s -> 0 < q <= 1 ->
    grid_clear (Rmin (1 / 10 ^ 3) (1/10 * eps / IZR n)) q ->
    exists N, forall fuel, (N <= fuel)%nat -> exists x, smallest_subsampled_gaussian_noise Phi ppf fast_len fuel pp n s q = Ok x.
  Proof.
    intros HP He Hd Hn Hs Hq HG. destruct (gaussian_noise_total eps delta pp n s HP He Hd ltac:(lia) Hs) as (N1 & x & H1).
    destruct (gaussian_noise_sound Phi HPhi ppf N1 eps delta pp n s x HP ltac:(lia) Hs (H1 N1 (le_n _))) as (top & -> & Ht & _).
    destruct (open_search top Ht) as [N2 HN2]. exists (N1 + S N2)%nat. intros fuel Hf. unfold smallest_subsampled_gaussian_noise. rewrite H1 by lia. cbn [bind].
    destruct (params_inv _ _ _ HP) as (-> & _ & _). unfold smallest_parameter. cbn [fst snd]. change (mkSearch (Fin 0) (Fin top) None (Fin (1 / 10 ^ 7)) false) with (search_up_to top).
    destruct (HN2 (delta_for_parameter fast_len default_tail eps n (gaussian_for Phi ppf fuel eps n s q)) (Fin delta)) with (fuel := fuel) as [r ->].
    - intros y Hy. apply subsampled_delta; try assumption. lra.
    - lia.
    - cbn [bind]. eexists; reflexivity.
  Qed.
End Total.

(** ** The smallest standard deviation, up to the tolerance *)
Section Tight.
  Context (Phi ppf : R -> R) (HPhi : normal_cdf Phi).
  Lemma sampled_hs sigma s q a b cuts : 0 < sigma ->
    hs (observe (remove_upper (fun x => Phi (x / sigma)) q s) (fun x => Phi (x / sigma)) cuts) a b =
    hs (observe (fun x => Phi ((x - (0 + - s)) / sigma)) (fun x => Phi ((x - 0) / sigma)) cuts) (q * a) (b - (1 - q) * a).
  Proof.
    intros Hs. unfold hs. cbn [outs prP prQ observe]. apply rsum_ext. intros cell _.
    assert (A : forall x, at_end (remove_upper (fun x => Phi (x / sigma)) q s) x = (1 - q) * at_end (fun x => Phi (x / sigma)) x + q * at_end (fun x => Phi ((x - (0 + - s)) / sigma)) x).
    { intros [x| | |]; cbn; try ring. unfold remove_upper, sampled. replace (x - (0 + - s)) with (x + s) by ring. reflexivity. }
    assert (B : forall x, at_end (fun x => Phi ((x - 0) / sigma)) x = at_end (fun x => Phi (x / sigma)) x).
    { intros [x| | |]; cbn; try ring. rewrite Rminus_0_r. reflexivity. }
    rewrite !A, !B. f_equal. ring.
  Qed.
  Lemma delta_exact sigma s q eps : 0 < sigma -> 0 < s -> 0 < q <= 1 -> 0 < eps ->
    delta_for_sigma Phi ppf s q eps (Fin sigma) = Ok (Fin (test Phi (s / sigma) q (exp eps - (1 - q)) (thr (s / sigma) q (exp eps - (1 - q))))) /\
    exists E, noisy_query any_value (fun y => Phi (y / sigma)) q s E /\ hockey_stick E eps = test Phi (s / sigma) q (exp eps - (1 - q)) (thr (s / sigma) q (exp eps - (1 - q))).
  Proof.
    intros Hs Hn Hq He. cbn [delta_for_sigma].
    destruct (gauss_class Phi ppf sigma s q REMOVE Hs Hn Hq) as [m Em]. rewrite Em. cbn [bind].
    destruct (mech_delta _ _ _ _ _ _ _ (gaussian_noise m Phi ppf sigma s true (-50) q REMOVE HPhi Em) eps (remove_away q eps Hq He)) as (d & Ed & UB & cuts & SC & Dd).
    cbn [upper_law lower_law] in *. rewrite Ed. assert (1 < exp eps) by (rewrite <- exp_0; apply exp_increasing; lra).
    assert (M : 0 < s / sigma) by (apply Rdiv_lt_0_compat; assumption).
    set (b := exp eps - (1 - q)). assert (Hb : 0 < b) by (unfold b; lra). set (t := thr (s / sigma) q b).
    assert (EQ : d = test Phi (s / sigma) q b t).
    { apply Rle_antisym.
      - rewrite <- Dd, hockey_hs, sampled_hs by assumption. rewrite !Rmult_1_r. apply (query_hs Phi HPhi sigma 0 (- s)); try assumption; try lra. rewrite Rabs_Ropp, Rabs_pos_eq by lra. lra.
      - specialize (UB [t * sigma] ltac:(repeat constructor)). rewrite hockey_hs, sampled_hs in UB by assumption. rewrite !Rmult_1_r in UB.
        eapply Rle_trans; [|exact UB]. eapply Rle_trans; [|apply half_line]. unfold test, b.
        replace ((t * sigma - (0 + - s)) / sigma) with (t + s / sigma) by (field; lra). replace ((t * sigma - 0) / sigma) with t by (field; lra). lra. }
    rewrite <- EQ. split; [reflexivity|]. eexists. split; [|exact Dd].
    apply (extreme_remove any_value (gaussian_law Phi sigma) q s cuts (gaussian_family Phi sigma HPhi Hs)); [exact Logic.I | assumption | assumption].
  Qed.
  Lemma guarantee_tight fuel eps delta s q x : 0 <= eps -> 0 <= delta <= 1 -> 0 < s ->
    gaussian_from_guarantee Phi ppf fuel (eps, delta) s q = Ok x ->
    exists sigma, x = Fin sigma /\ 0 < sigma /\
      (forall E, noisy_query any_value (fun y => Phi (y / sigma)) q s E -> dp_both E eps delta) /\
      (forall sigma', 0 < sigma' -> sigma' < sigma - 1 / 10 ^ 7 ->
         exists E, noisy_query any_value (fun y => Phi (y / sigma')) q s E /\ ~ dp E eps delta).
  Proof.
    intros He Hd Hs H. destruct (gaussian_guarantee Phi ppf fuel eps delta s q x HPhi He Hd Hs H) as (sigma & -> & Hsig & B).
    exists sigma. split; [reflexivity|]. split; [assumption|]. split; [assumption|].
    unfold gaussian_from_guarantee in H. destruct (Reqb_spec delta 0); [discriminate|]. destruct (Reqb_spec eps 0); [discriminate|]. assert (He' : 0 < eps) by lra.
    set (guess := sqrt (2 * ln (3 / 2 / delta)) * s / eps) in *.
    assert (G : 0 < guess).
    { unfold guess. apply Rdiv_lt_0_compat; [|lra]. apply Rmult_lt_0_compat; [|assumption]. apply sqrt_lt_R0.
      assert (0 < ln (3/2/delta)); [|lra]. rewrite <- ln_1. apply ln_increasing; [lra|].
      apply (Rmult_lt_reg_r delta); [lra|]. replace (3/2/delta * delta) with (3/2) by (field; lra). lra. }
    change (mkSearch (Fin 0) PInf (Some (Fin guess)) (Fin (1 / 10 ^ 7)) false) with (params_of 0 PInf (Some guess) (1 / 10 ^ 7) false) in H.
    destruct (inverse_monotone_function _ _ _ _ _) as [r|] eqn:I; cbn [bind] in H; [|discriminate].
    assert (OK : search_ok 0 PInf (Some guess) (1 / 10 ^ 7) false).
    { split; [lra|]. split; [discriminate|]. split; [lra|]. discriminate. }
    destruct (inverse_decreasing _ _ _ _ _ _ _ _ _ OK I) as [_ HM]. destruct r as [x0|]; [|discriminate].
    destruct (HM x0 eq_refl) as (sg & -> & Rg & (v & Fv & Mv) & _ & OPT & _).
    assert (Hq : 0 < q <= 1).
    { unfold delta_for_sigma in Fv. destruct (GaussianPrivacyLoss Phi ppf sg s true (-50) q REMOVE) as [m|] eqn:Em; [|discriminate]. apply gaussian_ok in Em. apply Em. }
    assert (ES : sg = sigma) by (destruct (GaussianPrivacyLoss Phi ppf sg s true (-50) q REMOVE); [injection H; auto | discriminate]). subst sg.
    intros s' Hs' L. destruct (delta_exact s' s q eps Hs' Hs Hq He') as (Ed & E & HE & HH). exists E. split; [assumption|].
    intros DP. apply dp_iff_hockey in DP. rewrite HH in DP.
    enough (sigma <= s' + tol_of (1 / 10 ^ 7) false) by (cbn in *; lra). apply OPT; [|split; [lra | reflexivity] |].
    - clear -HPhi Hs Hq He'. intros x y vx vy L Hx Hy.
      assert (P : forall z w, delta_for_sigma Phi ppf s q eps (Fin z) = Ok w -> 0 < z).
      { intros z w Hz. unfold delta_for_sigma in Hz. destruct (GaussianPrivacyLoss Phi ppf z s true (-50) q REMOVE) as [m|] eqn:Em; [|discriminate]. apply gaussian_ok in Em. apply Em. }
      pose proof (P _ _ Hx) as Px. pose proof (P _ _ Hy) as Py.
      destruct (delta_exact x s q eps Px Hs Hq He') as [Ex _]. destruct (delta_exact y s q eps Py Hs Hq He') as [Ey _].
      rewrite Ex in Hx. rewrite Ey in Hy. injection Hx as <-. injection Hy as <-. apply xleb_fin.
      assert (1 < exp eps) by (rewrite <- exp_0; apply exp_increasing; lra).
      apply (test_widen Phi HPhi); [apply Rdiv_lt_0_compat; assumption | | lra | lra].
      apply Rmult_le_compat_l; [lra|]. apply Rinv_le_contravar; assumption.
    - eexists. split; [exact Ed|]. cbn. apply Rltb_false. exact DP.
  Qed.
End Tight.
