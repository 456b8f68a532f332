(** The PLD accountant on a mixture of Gaussians: an example. *)
From Coq Require Import Lra.
From Verif Require Import Base XReal Exn PyDict TypesEvent TypesRelation TypesAdjacency SpecEvent ModelBuilder ModelPmf ModelPld ModelMake ModelMech ModelNoise ModelAccountant
  ModelSearch ModelCalculator ModelMixture ModelAccMix SpecDP SpecPmf SpecPld SpecMake SpecMech SpecClasses SpecConstruct SpecMixture SpecAccountant SpecAccPld SpecNoiseAcc SpecAccErr
  ProofDP ProofDict ProofPmf ProofCompose ProofConv ProofCompose2 ProofPld ProofSelf ProofDots ProofAccGen ProofAccSound ProofPeak ProofConstructEx ProofFindTotal ProofNoiseAcc ProofCalculator ProofCalcEx
  ProofMixLaw ProofMixDom ProofMixPld ProofMixTotal ProofErrDots ProofMixAcc ProofFullAcc.
Local Arguments Rltb : simpl never.
Local Arguments Rleb : simpl never.
Local Arguments Reqb : simpl never.

Lemma dots_mass disc eps ds p : 0 < disc -> connect_dots disc eps ds = Ok p -> 1 <= total p /\ discretization p = disc.
Proof.
  intros Hd CD. destruct (dots_ok disc Hd _ _ _ CD) as (C1 & C2 & NE & G & R01 & W & PE & DI & IM & _ & ET). split; [|exact DI]. rewrite ET.
  eapply Rle_trans; [|apply (T_le disc (fun x => x)); intros; apply Rmax_r]. rewrite C2 at 1. destruct (combine eps ds) as [|[z d] l]; [congruence|].
  rewrite (T_left disc Hd) by (try exact G; apply Rlt_le, exp_pos). cbn [map hd snd]. unfold Rdiv. rewrite Rmult_0_l. lra.
Qed.
Lemma mass_self fast_len p n tail r : (forall k, (k <= fast_len k)%nat) -> wf p -> infinity_mass p <= 1 -> pessimistic_estimate p = true -> 0 <= tail ->
  pmf_self_compose fast_len p n tail = Ok r -> wf r /\ discretization r = discretization p /\ pessimistic_estimate r = true /\
  psum p (fun _ => 1) ^ Z.to_nat n - 2 * tail <= psum r (fun _ => 1).
Proof.
  intros Hf W I PE Ht H. apply self_compose_ok in H; try assumption. split; [apply (so_wf _ _ _ _ H)|]. split; [apply (so_disc _ _ _ _ H)|]. split; [rewrite (so_pess _ _ _ _ H); exact PE|].
  destruct (so_up _ _ _ _ H PE (fun _ => 1) 1) as [U1 _]; [intros ? ? ?; lra | intros; lra|].
  destruct (so_up _ _ _ _ H PE (fun _ => 0) 1) as [_ U0]; [intros ? ? ?; lra | intros; lra|].
  unfold ptest in *. rewrite pown_one in U1. rewrite psum_zero, pown_zero in U0. lra.
Qed.

Section Run.
  Context (Phi ppf : R -> R) (HPhi : normal_cdf Phi) (HQ : quantile_of Phi ppf) (fast_len : nat -> nat) (Hf : forall k, (k <= fast_len k)%nat).
  Notation sens := [1; 2].
  Notation probs := [1/2; 1/2].
  Notation nums := (map (fun x => PyFloat x)).
  Notation ev := (MixtureOfGaussians (PyFloat 1) (nums sens) (nums probs)).
  Notation disc := default_disc.

  Lemma part_one : positive_part (combine sens probs) = 1.
  Proof. unfold positive_part. cbn [combine filter fst]. rewrite !Rltb_true by lra. cbn. lra. Qed.
  Lemma example_mixture : new_mixture 1 sens probs (-50) = Ok (combine sens probs).
  Proof.
    unfold new_mixture. rewrite Rleb_false by lra. rewrite Rltb_false by lra. cbn [length Nat.eqb negb combine filter snd fst]. rewrite !Reqb_false by lra. cbn [negb existsb fst snd map]. rewrite !Rltb_false by lra. cbn [orb].
    assert (M : np_max [1; 2] = 2). { unfold np_max. cbn. unfold Rmax. repeat destruct (Rle_dec _ _); lra. }
    rewrite M, Reqb_false by lra. replace (rsum snd [(1, 1/2); (2, 1/2)]) with 1 by (cbn; lra). rewrite !Rleb_false by lra. cbn [orb].
    replace (isclose (Fin 1) (Fin 1)) with true; [reflexivity|]. symmetry. unfold isclose. cbn. apply Rleb_true. rewrite Rminus_diag_eq, Rabs_R0 by reflexivity. rewrite Rabs_R1, Rmax_left by lra. lra.
  Qed.
  Lemma example_pld : exists fuel r a, mixture_pld_of Phi ppf fuel disc (Fin 1) (map Fin sens) (map Fin probs) = Ok (new_pld r (Some a)) /\
    sound_pmf r /\ sound_pmf a /\ discretization r = disc /\ discretization a = disc /\
    1 - 1/2 * exp (-50) <= psum r (fun _ => 1) /\ 1 - 1/2 * exp (-50) <= psum a (fun _ => 1) /\ infinity_mass r < 1 /\ infinity_mass a < 1.
  Proof.
    pose proof default_disc_pos as Dd. assert (HT : rsum (fun p => p) probs = 1) by (cbn; lra). assert (HM : forall s, In s sens -> s <= 2) by (intros s [<-|[<-|[]]]; lra).
    destruct (mixture_total Phi ppf 1 sens probs (combine sens probs) disc (-50) 2 HPhi HQ Dd example_mixture HT HM (or_introl part_one)) as (fuel & D & HD). specialize (HD fuel (le_n fuel)).
    assert (X : 1/2 * exp (-50) < 1). { assert (exp (-50) <= 1) by (apply exp_at_most_1; lra). lra. }
    destruct (mixture_class Phi ppf fuel 1 sens probs disc (-50) D 2 HPhi HQ Dd HD HT HM ltac:(right; rewrite part_one; lra)) as (Hs & (S1 & S2 & _) & _ & I1 & I2).
    unfold from_mixture_gaussian_mechanism in HD. rewrite example_mixture in HD. cbn [bind] in HD. unfold mx_pmf in HD. cbn [andb] in HD.
    destruct (mx_dots_pmf Phi ppf fuel 1 (combine sens probs) true (-50) REMOVE disc) as [r|] eqn:ER; [|discriminate]. cbn [bind] in HD.
    destruct (mx_dots_pmf Phi ppf fuel 1 (combine sens probs) true (-50) ADD disc) as [a|] eqn:EA; [|discriminate]. cbn [bind] in HD. injection HD as <-. cbn [new_pld pmf_remove pmf_add] in *.
    assert (K : forall adj p, mx_dots_pmf Phi ppf fuel 1 (combine sens probs) true (-50) adj disc = Ok p -> 1 <= total p /\ discretization p = disc).
    { intros adj p. unfold mx_dots_pmf. destruct (mx_tail Phi ppf fuel 1 (combine sens probs) true (-50) adj) as [t|]; [|discriminate]. cbn [bind]. destruct (mx_deltas _ _ _ _ _ _) as [ds|]; [|discriminate]. cbn [bind].
      rewrite (fixed_gap_eq disc Dd). apply dots_mass, Dd. }
    destruct (K REMOVE r ER) as [T1 D1]. destruct (K ADD a EA) as [T2 D2]. unfold ProofPmf.total in T1, T2.
    exists fuel, r, a. split.
    - unfold mixture_pld_of. cbn [map finite_values]. unfold from_mixture_gaussian_mechanism. rewrite example_mixture. cbn [bind]. unfold mx_pmf. cbn [andb]. rewrite ER. cbn [bind]. rewrite EA. reflexivity.
    - repeat split; try assumption; try apply S1; try apply S2; try lra.
  Qed.

  Lemma full_example : exists fuel A0 A, let h := [(SelfComposed ev 2, 1%Z)] in
    pld_new disc = Ok A0 /\ runs (full_accountant Phi ppf fast_len fuel ADD_OR_REMOVE_ONE disc) A0 h A /\ pos_history h /\
    Forall covered_run (history_runs h) /\ exists E, interaction (run_classes (noise_or_mixture Phi ADD_OR_REMOVE_ONE) (history_runs h)) E.
  Proof.
    destruct example_pld as (fuel & r & a & ED & S1 & S2 & D1 & D2 & M1 & M2 & I1 & I2). pose proof tiny_tail as T. pose proof default_disc_pos as Dd.
    assert (X : 1/2 * exp (-50) <= 1/100). { pose proof exp_50 as X. eapply Rle_trans; [exact X|]. replace (1 / 100) with (/ 100) by lra. apply Rinv_le_contravar; lra. }
    set (i0 := mkPmf disc 0 true (Sparse [(0%Z, 1)])).
    assert (Wi : wf i0) by (apply identity_wf, Dd).
    assert (Mi : psum i0 (fun _ => 1) = 1) by (unfold psum, dsum; cbn; lra).
    assert (K : forall p, sound_pmf p -> discretization p = disc -> 1 - 1/2 * exp (-50) <= psum p (fun _ => 1) -> infinity_mass p < 1 ->
      exists p2 p3, pmf_self_compose fast_len p 2 default_tail = Ok p2 /\ compose_pmfs i0 p2 default_tail = Ok p3).
    { intros p (Wp & Ip & Pp) Dp Mp Ip'. assert (Q : 9/10 <= psum p (fun _ => 1) ^ Z.to_nat 2) by (change (Z.to_nat 2) with 2%nat; cbn [pow]; nra).
      destruct (pmf_self_total fast_len p 2 default_tail Wp) as [p2 E2]; try lra; try lia.
      { apply size_positive. lra. }
      destruct (mass_self fast_len p 2 default_tail p2 Hf Wp Ip Pp ltac:(lra) E2) as (W2 & D2' & P2 & M2').
      destruct (compose_total i0 p2 default_tail Wi W2) as [p3 E3]; try lra.
      - cbn [i0 discretization]. congruence.
      - symmetry. exact P2.
      - apply size_positive. rewrite Mi. lra.
      - apply size_positive. lra.
      - right. rewrite Mi. lra.
      - exists p2, p3. split; assumption. }
    destruct (K r S1 D1 M1 I1) as (r2 & r3 & Er2 & Er3). destruct (K a S2 D2 M2 I2) as (a2 & a3 & Ea2 & Ea3).
    set (A0 := mkAcc (mkPldState false (new_pld i0 None)) new_builder).
    set (e := SelfComposed ev 2).
    exists fuel, A0, (mkAcc (mkPldState false (new_pld r3 (Some a3))) (fst (builder_compose new_builder e 1))). cbn zeta.
    assert (ME : forall dc, full_accountant Phi ppf fast_len fuel ADD_OR_REMOVE_ONE disc dc (acc_state A0) e 1 = (if dc then mkPldState false (new_pld r3 (Some a3)) else acc_state A0, Fine)).
    { intros dc. unfold full_accountant, pld_accountant, e. cbn [pld_mc]. change (2 * 1)%Z with 2%Z. destruct dc; [|reflexivity]. cbn [nval xeqb map]. rewrite Reqb_false by lra.
      change [Fin 1; Fin 2] with (map Fin sens). change [Fin (1/2); Fin (1/2)] with (map Fin probs). rewrite ED. unfold pld_charge, self_composed. cbn [bind]. unfold pld_self_compose. cbn [new_pld pmf_remove pmf_add symmetric].
      rewrite Er2. cbn [bind]. rewrite Ea2. cbn [bind]. unfold pld_compose. cbn [acc_state A0 cur_pld new_pld pmf_remove pmf_add symmetric andb]. rewrite Er3. cbn [bind]. rewrite Ea3. cbn [bind non_dp]. reflexivity. }
    split; [reflexivity|]. split.
    { eapply runs_cons; [|apply runs_nil]. cbn [acc_compose]. rewrite (ME false). cbn [acc_state acc_ledger A0]. change (mkPldState false (new_pld i0 None)) with (acc_state A0). rewrite (ME true).
      unfold e. cbn [builder_compose Z.ltb Z.compare fst]. reflexivity. }
    split. { constructor; [|constructor]. cbn. repeat split; lia. }
    change (history_runs [(SelfComposed ev 2, 1%Z)]) with [(ev, 2%Z)]. split.
    { constructor; [|constructor]. cbn [covered_run]. split; [apply Z.leb_le; reflexivity|]. intros ss ps H1 H2. rewrite map_map in H1, H2. change (map (fun x => nval (PyFloat x)) sens) with (map Fin sens) in H1. change (map (fun x => nval (PyFloat x)) probs) with (map Fin probs) in H2.
      apply map_fin_inj in H1 as <-. apply map_fin_inj in H2 as <-. split; [cbn; lra | right; rewrite part_one; lra]. }
    assert (Wn : forall c, In c (combine sens probs) -> 0 <= snd c) by (intros c [<-|[<-|[]]]; cbn; lra).
    set (E1 := observe (fun x => mixed (normal_law Phi 1) (combine [1; -2] (map snd (combine sens probs))) (x - 0)) (add_noise (normal_law Phi 1) 0) [0; 1]).
    assert (HE : mixture_query (normal_law Phi 1) (combine sens probs) E1).
    { exists 0, [1; -2], [0; 1]. split; [|split; [repeat constructor; lra | reflexivity]]. cbn [combine]. constructor; [cbn; rewrite Rabs_right; lra|]. constructor; [cbn; rewrite Rabs_left; lra | constructor]. }
    assert (V : valid E1).
    { apply (dom_query Phi HPhi 1 ltac:(lra) (combine sens probs) Wn ltac:(cbn; lra) E1 ADD 0 2 HE); try lra. intros x. cbn [mixture_upper]. destruct HPhi as ((B & _) & _). pose proof (B (x / 1)). unfold law. lra. }
    assert (HM : noise_or_mixture Phi ADD_OR_REMOVE_ONE ev E1).
    { cbn [noise_or_mixture]. exists 1, sens, probs. split; [reflexivity|]. split; [rewrite map_map; reflexivity|]. split; [rewrite map_map; reflexivity|]. right. split; [exists 1; split; [left; reflexivity | lra]|]. right. split; [lra|]. split; [exact V | exact HE]. }
    exists (seq_exper (seq_exper silent (fun _ => E1)) (fun _ => E1)).
    unfold run_classes. cbn [flat_map fst snd]. change (Z.to_nat 2) with 2%nat. cbn [repeat app].
    apply (inter_snoc [_]); [apply (inter_snoc []); [apply inter_nil|]|]; intros _ _; exact HM.
  Qed.
End Run.
Lemma full_history_example : exists Phi ppf fuel A0 A, normal_cdf Phi /\ quantile_of Phi ppf /\
  let h := [(SelfComposed (MixtureOfGaussians (PyFloat 1) [PyFloat 1; PyFloat 2] [PyFloat (1/2); PyFloat (1/2)]) 2, 1%Z)] in
  pld_new default_disc = Ok A0 /\ runs (full_accountant Phi ppf (fun k => k) fuel ADD_OR_REMOVE_ONE default_disc) A0 h A /\ pos_history h /\
  Forall covered_run (history_runs h) /\ exists E, interaction (run_classes (noise_or_mixture Phi ADD_OR_REMOVE_ONE) (history_runs h)) E.
Proof.
  destruct normal_exists as (Phi & ppf & HP & HQ). destruct (full_example Phi ppf HP HQ (fun k => k) ltac:(intros; lia)) as (fuel & A0 & A & H).
  exists Phi, ppf, fuel, A0, A. split; [exact HP|]. split; [exact HQ|]. exact H.
Qed.
