(** Instances of the searches for the smallest noise. *)
From Verif Require Import Base XReal Exn TypesAdjacency ModelPmf ModelPld ModelMake ModelSearch ModelSmallest ModelMech ModelNoise
  SpecDP SpecPmf SpecPld SpecSearch SpecSmallest SpecMech SpecClasses SpecConstruct
  ProofDP ProofPmf ProofPld ProofSelf ProofParams ProofDots ProofSearch ProofAdvanced ProofSmallestEx ProofPeak ProofNoise ProofShape ProofShapeGauss ProofShapeInt
  ProofAdditive ProofClasses ProofMechTop ProofGuarantee ProofTails ProofTailClasses ProofDotsMech ProofConstruct ProofConstructTotal ProofConstructEx ProofFindNoise ProofFindTotal ProofPldApi.
Local Arguments Rltb : simpl never.
Local Arguments Rleb : simpl never.
Local Arguments Reqb : simpl never.

Lemma query_exists ok F s n : noise_family ok F -> ok s -> 0 < s -> exists E, interaction (repeat (noisy_query ok F 1 s) n) E.
Proof.
  intros HF Os Hs. exists (repeated (observe (remove_upper F 1 s) F [0; 1]) n). apply runs_interaction. apply extreme_remove; try assumption.
  repeat constructor. lra.
Qed.

(** one query: the search succeeds *)
Lemma laplace_top fuel : exists v, delta_for_parameter (fun k => k) default_tail 1 1 (laplace_for fuel 1 1 1) (Fin 1) = Ok v /\ xltb (Fin (1 / 10 ^ 10)) v = false.
Proof.
  destruct (laplace_delta_total (fun k => k) fuel 1 1 1 1) as [v Hv]; try lra; try lia. exists v. split; [assumption|].
  unfold delta_for_parameter, laplace_for in Hv. change (1 =? 0)%Z with false in Hv. cbn iota in Hv.
  unfold from_laplace_mechanism, subsampled_pld in Hv. rewrite Reqb_true in Hv by reflexivity.
  set (disc := 1/10 * 1 / 1) in *. assert (Ed : disc = 1/10) by (unfold disc; lra). assert (Hd : 0 < disc) by lra.
  destruct (LaplacePrivacyLoss 1 1 1 REMOVE) as [m|] eqn:Em; cbn [bind] in Hv; [|discriminate].
  pose proof (laplace_noise m 1 1 1 REMOVE Em) as HA. unfold monotone_pmf in Hv. cbn [andb] in Hv.
  destruct (dots_pmf m disc) as [p|] eqn:Hp; cbn [bind] in Hv; [|discriminate].
  assert (K : wf p /\ infinity_mass p <= 1 /\ pmf_delta p (Fin 1) <= 0 /\ pessimistic_estimate p = true).
  { assert (BM : is_discrete m = false /\ connect_dots_bounds m = Ok (EpsilonBounds (Fin (1 / 1)) (Fin (- (1 / 1))))).
    { apply laplace_ok in Em. destruct Em as [_ ->]. split; [reflexivity|]. cbn [additive connect_dots_bounds]. unfold laplace_bounds. rewrite Reqb_true by reflexivity. reflexivity. }
    destruct BM as [B1 B2]. unfold dots_pmf in Hp. rewrite B1, B2 in Hp. cbn [bind xdiv] in Hp. rewrite Reqb_false in Hp by lra. cbn [round_xr bind] in Hp.
    replace (Rceil (1 / 1 / disc)) with 10%Z in Hp by (symmetry; apply Rceil_unique; rewrite Ed; lra).
    replace (Rfloor (- (1 / 1) / disc)) with (-10)%Z in Hp by (symmetry; apply Rfloor_unique; rewrite Ed; lra).
    destruct (deltas_at _ disc _) as [ds|] eqn:ED in Hp; cbn [bind] in Hp; [|discriminate].
    rewrite fixed_gap_eq in Hp by assumption.
    destruct (dots_zero m _ _ _ 1 disc p (1/1) _ ds 10%Z Hd HA (fun e E => laplace_pure 1 1 e E Rlt_0_1 Rlt_0_1) ED Hp) as (PR & D & I).
    - apply zrange_in. rewrite Z2Nat.id by lia. lia.
    - rewrite Ed. lra.
    - split; [apply PR|]. split; [lra|]. replace (IZR 10 * disc) with 1 in D by (rewrite Ed; lra). split; [assumption|].
      apply dots_ok in Hp; [|assumption]. cbv zeta in Hp. tauto. }
  destruct K as (W & I & D & P). unfold pld_self_compose in Hv. cbn [new_pld symmetric pmf_remove pmf_add] in Hv.
  destruct (pmf_self_compose _ p 1 default_tail) as [r|] eqn:Hr; cbn [bind] in Hv; [|discriminate]. injection Hv as <-.
  destruct (self_compose_copies (fun k => k) p 1 default_tail r p 1 (fun k => le_n k) W I default_tail_pos Hr (copies_one p)) as [_ B].
  specialize (B P). cbn [xltb]. apply Rltb_false. unfold pld_delta. cbn [symmetric pmf_remove pmf_add].
  change (pmf_delta r (Fin 1) <= 1 / 10 ^ 10). unfold default_tail in B. lra.
Qed.

Lemma laplace_finds : exists fuel x,
  smallest_parameter (fun k => k) default_tail fuel (1, 1 / 10 ^ 10) 1 (laplace_for fuel 1 1 1) (search_up_to 1) = Ok (Some x) /\
  smallest_laplace_noise (fun k => k) fuel (1, 1 / 10 ^ 10) 1 1 = Ok x.
Proof.
  destruct (open_search 1 ltac:(lra)) as [N HN]. exists (S N).
  destruct (HN (delta_for_parameter (fun k => k) default_tail 1 1 (laplace_for (S N) 1 1 1)) (Fin (1 / 10 ^ 10))) with (fuel := S N) as [r Hr].
  - intros x Hx. apply laplace_delta_total; try lia; lra.
  - lia.
  - destruct r as [x|].
    + exists x. unfold smallest_laplace_noise, smallest_parameter. cbn [fst snd]. rewrite Reqb_false by lra.
      replace (1 * 1 / 1) with 1 by lra. rewrite Hr. split; reflexivity.
    + exfalso. unfold inverse_monotone_function, search_up_to in Hr. cbn [sp_lower sp_upper sp_guess sp_tol sp_discrete xeqb] in Hr.
      destruct (laplace_top (S N)) as (v & Hv & B). rewrite Hv in Hr. cbn [bind] in Hr. rewrite B in Hr. cbn [bind fst snd] in Hr.
      destruct (search_loop _ _ _ _ _ _ _ _); discriminate.
Qed.

Lemma parameter_example :
  search_ok 0 (Fin 1) None (1 / 10 ^ 7) false /\
  (forall fuel x D, in_range 0 (Fin 1) x -> laplace_for fuel 1 1 1 (Fin x) = Ok D ->
     sound_pld D /\ (forall E, noisy_query any_value (laplace_law x) 1 1 E -> pld_bounds D E)) /\
  exists fuel x, smallest_parameter (fun k => k) default_tail fuel (1, 1 / 10 ^ 10) 1 (laplace_for fuel 1 1 1)
    (params_of 0 (Fin 1) None (1 / 10 ^ 7) false) = Ok (Some x).
Proof.
  split; [apply search_up_to_ok; lra|]. split.
  - intros fuel b D _ HD. unfold laplace_for in HD. change (1 =? 0)%Z with false in HD. cbn iota in HD.
    assert (Hdisc : 0 < 1/10 * 1 / 1) by lra.
    apply (constructed_sound fuel true (1/10 * 1 / 1) 1 D any_value (laplace_law b) 1 Hdisc (grid_clear_1 _)).
    assert (Hb : 0 < b).
    { unfold from_laplace_mechanism, subsampled_pld, LaplacePrivacyLoss in HD. destruct (Rleb_spec b 0); [discriminate | lra]. }
    apply (by_laplace fuel true true _ 1 (Ok D) b 1 Hb Rlt_0_1 HD).
  - destruct laplace_finds as (fuel & x & H & _). exists fuel, x. exact H.
Qed.
Lemma laplace_noise_example :
  privacy_parameters 1 (1 / 10 ^ 10) = Ok (1, 1 / 10 ^ 10) /\
  (exists fuel b, smallest_laplace_noise (fun k => k) fuel (1, 1 / 10 ^ 10) 3 2 = Ok (Fin b) /\ 0 < b <= 6 /\
     exists E, interaction (repeat (noisy_query any_value (laplace_law b) 1 2) 3) E).
Proof.
  assert (P : privacy_parameters 1 (1 / 10 ^ 10) = Ok (1, 1 / 10 ^ 10)) by (apply params_fwd; lra). split; [exact P|].
  destruct (laplace_noise_total (fun k => k) _ _ _ 3 2 P) as [N HN]; try lra; try lia. destruct (HN (S N) ltac:(lia)) as [x Hx].
  destruct (laplace_noise_sound (fun k => k) (S N) _ _ _ 3 2 x (fun k => le_n k) P ltac:(lia) ltac:(lra) Hx) as (b & -> & Hb & _).
  exists (S N), b. split; [assumption|]. split; [lra|]. apply query_exists; [apply laplace_family; lra | exact Logic.I | lra].
Qed.
Lemma discrete_noise_example :
  privacy_parameters 1 (1 / 10 ^ 10) = Ok (1, 1 / 10 ^ 10) /\
  (exists fuel a F, smallest_discrete_laplace_noise (fun k => k) fuel (1, 1 / 10 ^ 10) 3 2 = Ok (Fin a) /\ 1 / 6 <= a /\
     integer_noise (dlaplace_weights a) F /\ exists E, interaction (repeat (noisy_query integer_value F 1 2) 3) E).
Proof.
  assert (P : privacy_parameters 1 (1 / 10 ^ 10) = Ok (1, 1 / 10 ^ 10)) by (apply params_fwd; lra). split; [exact P|].
  destruct (discrete_laplace_noise_total (fun k => k) _ _ _ 3 2 P) as [N HN]; try lra; try lia. destruct (HN (S N) ltac:(lia)) as [x Hx].
  destruct (discrete_laplace_noise_sound (fun k => k) (S N) _ _ _ 3 2 x (dlaplace_law 1) (fun k => le_n k) P ltac:(lia) ltac:(lia) Hx) as (a & -> & Hb & _).
  assert (Ha : 0 < a) by lra. exists (S N), a, (dlaplace_law a). split; [assumption|]. split; [lra|]. split; [apply dlaplace_noise, Ha|].
  apply query_exists; [apply dlaplace_family, Ha | exists 2%Z; reflexivity | lra].
Qed.
