(** The accounting of the clustering succeeds, with a bound on what it reports. *)
From Coq Require Import FunctionalExtensionality.
From Verif Require Import Base XReal Exn PyDict TypesEvent TypesRelation TypesAdjacency TypesCluster ModelBuilder ModelPmf ModelPld ModelMake ModelMech ModelNoise
  ModelAccountant ModelSearch ModelCalculator
  SpecDP SpecPmf SpecPld SpecMake SpecMech SpecClasses SpecConstruct SpecAccountant SpecAccPld SpecNoiseAcc SpecCalculator
  ProofDP ProofDict ProofPmf ProofCompose ProofConv ProofCompose2 ProofPld ProofSelf ProofParams ProofDots ProofAccGen ProofAccSound
  ProofPeak ProofNoise ProofShape ProofShapeGauss ProofShapeInt ProofAdditive ProofClasses ProofMechTop
  ProofTails ProofTailClasses ProofDotsMech ProofConstruct ProofConstructTotal ProofConstructEx ProofFindNoise ProofFindTotal ProofInfMass ProofNoiseAcc ProofTv ProofCalculator.
Local Arguments Rltb : simpl never.
Local Arguments Rleb : simpl never.
Local Arguments Reqb : simpl never.

Lemma tiny_tail : 0 < default_tail <= 1 / 1000.
Proof. unfold default_tail. split; [apply Rdiv_lt_0_compat; [lra | apply pow_lt; lra]|]. lra. Qed.
Lemma psum_zero p : psum p (fun _ => 0) = 0.
Proof. rewrite (psum_ext p _ (fun k => 0 * 1)) by (intros; ring). rewrite psum_scal. ring. Qed.
Lemma pown_zero p n : pown p n (fun _ => 0) = 0.
Proof. induction n as [|n IH]; cbn [pown]; [reflexivity|]. rewrite (psum_ext p _ (fun _ => 0)) by (intros; exact IH). apply psum_zero. Qed.
Lemma compose_inf p q tail r : wf p -> wf q -> pessimistic_estimate p = true -> 0 <= tail -> compose_pmfs p q tail = Ok r ->
  infinity_mass r <= combine_inf (infinity_mass p) (infinity_mass q) + tail.
Proof.
  intros Wp Wq PE Ht H. apply compose_pmfs_ok in H; [|assumption..]. destruct (co_pes _ _ _ _ H PE) as [_ M].
  destruct (M (fun _ => 0) 1) as [_ M']; [intros ? ? ?; lra | intros; lra|]. specialize (M' Ht). unfold ptest, conv2 in M'.
  rewrite psum_zero in M'. rewrite (psum_ext p _ (fun _ => 0)) in M' by (intros; apply psum_zero). rewrite psum_zero in M'. lra.
Qed.

(** ** The constructors *)
Section Pmfs.
  Context (Phi ppf : R -> R) (fuel : nat) (disc : R).
  Hypothesis HPhi : normal_cdf Phi.
  Hypothesis Hppf : quantile_of Phi ppf.
  Hypothesis Hd : 0 < disc.

  Lemma laplace_pmf b : 0 < b -> exists p, laplace_pld_of fuel disc (Fin b) (Fin 1) = Ok (new_pld p None) /\
    proper p /\ pessimistic_estimate p = true /\ discretization p = disc /\ infinity_mass p = 0 /\ tv p <= 1 - exp (- (1 / (2 * b))).
  Proof.
    intros Hb. assert (C : 0 < 1 / b) by (apply Rdiv_lt_0_compat; lra).
    destruct (laplace_constructs b 1 true disc 1 true Hb ltac:(lra) ltac:(lra) Hd (fun _ _ => grid_clear_1 disc)) as (N & D & HD). specialize (HD N (le_n N)).
    unfold from_laplace_mechanism, subsampled_pld in HD. destruct (LaplacePrivacyLoss b 1 1 REMOVE) as [m|] eqn:Em; [|discriminate]. cbn [bind monotone_pmf andb] in HD.
    destruct (dots_pmf m disc) as [p|] eqn:Hp; [|discriminate]. exists p. split.
    { unfold laplace_pld_of, from_laplace_mechanism, subsampled_pld. rewrite Em. cbn [bind monotone_pmf andb]. rewrite Hp. cbn [bind]. rewrite Reqb_true by reflexivity. reflexivity. }
    destruct (laplace_inf b 1 1 REMOVE disc m p Hd (grid_clear_1 disc REMOVE) Em Hp) as [PR I].
    pose proof (laplace_noise m b 1 1 REMOVE Em) as HA. pose proof Em as Em'. apply laplace_ok in Em'. destruct Em' as [_ E].
    destruct (tv_dots m _ _ _ 1 disc p (1 / b) (- (1 / b)) Hd HA) as (_ & PE & DI & x & TV).
    - rewrite E. reflexivity.
    - rewrite E. cbn [additive connect_dots_bounds]. unfold laplace_bounds. rewrite Reqb_true by reflexivity. reflexivity.
    - lra.
    - exact Hp.
    - split; [exact PR|]. split; [exact PE|]. split; [exact DI|]. split; [exact I|]. rewrite TV. apply laplace_step; [assumption | lra].
  Qed.

  Lemma gaussian_pmf sigma : 0 < sigma -> exists p, gaussian_pld_of Phi ppf fuel disc (Fin sigma) (Fin 1) = Ok (new_pld p None) /\
    proper p /\ pessimistic_estimate p = true /\ discretization p = disc /\ infinity_mass p <= 1 / 2 * exp (-50) /\ tv p <= 2 * (1 / sigma).
  Proof.
    intros Hb.
    destruct (gaussian_constructs Phi ppf sigma 1 true disc (-50) 1 true HPhi Hppf Hb ltac:(lra) ltac:(lra) ltac:(lra) Hd (fun _ _ => grid_clear_1 disc)) as (N & D & HD). specialize (HD N (le_n N)).
    unfold from_gaussian_mechanism, subsampled_pld in HD. destruct (GaussianPrivacyLoss Phi ppf sigma 1 true (-50) 1 REMOVE) as [m|] eqn:Em; [|discriminate]. cbn [bind monotone_pmf andb] in HD.
    destruct (dots_pmf m disc) as [p|] eqn:Hp; [|discriminate]. exists p. split.
    { unfold gaussian_pld_of, from_gaussian_mechanism, subsampled_pld. rewrite Em. cbn [bind monotone_pmf andb]. rewrite Hp. cbn [bind]. rewrite Reqb_true by reflexivity. reflexivity. }
    destruct (gaussian_inf Phi ppf sigma 1 (-50) 1 REMOVE disc m p HPhi Hppf ltac:(lra) Hd (grid_clear_1 disc REMOVE) Em Hp) as [PR I].
    pose proof (gaussian_noise m Phi ppf sigma 1 true (-50) 1 REMOVE HPhi Em) as HA. pose proof Em as Em'. apply gaussian_ok in Em'. destruct Em' as [_ E].
    set (l0 := sigma * ppf (1/2 * exp (-50))).
    assert (NEG : l0 <= 0).
    { assert (exp (-50) <= 1) by (rewrite <- exp_0; apply exp_le; lra). pose proof (exp_pos (-50)).
      assert (ppf (1/2 * exp (-50)) <= 0) by (apply (quantile_neg Phi); [assumption | assumption | lra]). unfold l0. nra. }
    assert (S2 : 0 < sigma * sigma) by nra.
    set (loss x := 1 * (- (1 / 2) * 1 - x) / (sigma * sigma)).
    assert (LO : forall x, a_privacy_loss 1 REMOVE (gaussian_loss0 sigma 1 REMOVE) (Fin x) = Ok (Fin (loss x))).
    { intros x. unfold a_privacy_loss. rewrite Reqb_true by reflexivity. unfold gaussian_loss0. cbn [xsub xadd xneg xmul xdiv]. rewrite Reqb_false by lra. reflexivity. }
    assert (BD : connect_dots_bounds m = Ok (EpsilonBounds (Fin (loss (l0 - 1))) (Fin (loss (- l0))))).
    { rewrite E. cbn [additive connect_dots_bounds]. unfold gaussian_bounds, gaussian_tail. fold l0. cbn [bind]. unfold gaussian_privacy_loss. rewrite LO. cbn [bind lower_x_truncation upper_x_truncation]. rewrite !LO. reflexivity. }
    destruct (tv_dots m _ _ _ 1 disc p (loss (l0 - 1)) (loss (- l0)) Hd HA) as (_ & PE & DI & x & TV).
    - rewrite E. reflexivity.
    - exact BD.
    - unfold loss. assert (0 < / (sigma * sigma)) by (apply Rinv_0_lt_compat, S2). unfold Rdiv. split; nra.
    - exact Hp.
    - split; [exact PR|]. split; [exact PE|]. split; [exact DI|]. split; [exact I|]. rewrite TV. apply (normal_step Phi sigma); [assumption | assumption | lra].
  Qed.
End Pmfs.

(** ** Accounting the event *)
Section Account.
  Context (Phi ppf : R -> R) (mixture_pld : xr -> list xr -> list xr -> res pld) (fast_len : nat -> nat) (fuel : nat).
  Hypothesis HPhi : normal_cdf Phi.
  Hypothesis Hppf : quantile_of Phi ppf.
  Hypothesis Hf : forall k, (k <= fast_len k)%nat.
  Notation mc := (cluster_mc Phi ppf mixture_pld fast_len fuel).
  Notation disc := default_disc.

  Lemma proper_parts p : proper p -> wf p /\ psum p (fun _ => 1) + infinity_mass p = 1.
  Proof. intros PR. apply proper_total in PR. exact PR. Qed.

  Lemma step_total p q t : 0 <= t <= 1 -> wf p -> wf q -> pessimistic_estimate p = true -> pessimistic_estimate q = true -> discretization p = discretization q ->
    0 <= infinity_mass p <= 1 -> 1 / 2 <= psum p (fun _ => 1) <= 1 + t -> 1 / 2 <= psum q (fun _ => 1) <= 1 + t ->
    exists r, compose_pmfs p q default_tail = Ok r /\ tv r <= (1 + t) * (tv p + tv q) + default_tail /\ wf r /\ discretization r = discretization p /\
      pessimistic_estimate r = true /\ total r = psum p (fun _ => 1) * psum q (fun _ => 1) + combine_inf (infinity_mass p) (infinity_mass q) /\
      infinity_mass r <= combine_inf (infinity_mass p) (infinity_mass q) + default_tail.
  Proof.
    intros Ht Wp Wq Pp Pq HD Ip Mp Mq. pose proof tiny_tail as T.
    destruct (compose_total p q default_tail Wp Wq HD) as [r Hr].
    - congruence.
    - apply size_positive. lra.
    - apply size_positive. lra.
    - lra.
    - right. assert (1 / 2 * (1 / 2) <= psum p (fun _ => 1) * psum q (fun _ => 1)) by (apply Rmult_le_compat; lra). lra.
    - exists r. split; [exact Hr|].
      destruct (tv_compose p q t default_tail r Wp Wq) as (A & B & C & D & E); try assumption; try lra.
      split; [exact A|]. split; [exact B|]. split; [exact C|]. split; [exact D|]. split; [exact E|]. apply compose_inf; try assumption. lra.
  Qed.

  Lemma accounts sd sens p n : 0 < sd -> 0 < sens -> 0 < p -> (1 <= n)%Z ->
    exists A0 A, pld_new disc = Ok A0 /\ acc_compose mc A0 (EventObj (noise_events sd sens p n)) 1 = (A, Ok tt) /\
      non_dp (acc_state A) = false /\
      pldacc_delta (acc_state A) (Fin 0) <= 101 / 100 * (2 * (sens / sd) + IZR n * (1 - exp (- (p / 2)))) + 1 / 10 ^ 14.
  Proof.
    intros Hs He Hp Hn. pose proof tiny_tail as T. pose proof default_disc_pos as Dd.
    destruct (gaussian_pmf Phi ppf fuel disc HPhi Hppf Dd (sd / sens)) as (g & Eg & PRg & Pg & Dg & Ig & Tg); [apply Rdiv_lt_0_compat; assumption|].
    destruct (laplace_pmf fuel disc Dd (1 / p)) as (l & El & PRl & Pl & Dl & Il & Tl); [apply Rdiv_lt_0_compat; lra|].
    replace (1 / (2 * (1 / p))) with (p / 2) in Tl by (field; lra). replace (2 * (1 / (sd / sens))) with (2 * (sens / sd)) in Tg by (field; lra).
    apply proper_parts in PRg. destruct PRg as [Wg Mg]. apply proper_parts in PRl. destruct PRl as [Wl Ml].
    assert (Eg50 : 1 / 2 * exp (-50) <= 1 / 100). { pose proof exp_50 as X. eapply Rle_trans; [exact X|]. replace (1 / 100) with (/ 100) by lra. apply Rinv_le_contravar; lra. }
    pose proof Wg as (_ & Ig0 & _).
    set (i0 := mkPmf disc 0 true (Sparse [(0%Z, 1)])).
    assert (Wi : wf i0) by (apply identity_wf, Dd).
    assert (Mi : psum i0 (fun _ => 1) = 1) by (unfold psum, dsum; cbn; lra).
    destruct (step_total i0 g 0) as (r1 & E1 & T1 & W1 & D1 & P1 & M1 & I1); try assumption; try reflexivity; try (cbn; lra); try congruence; try lra.
    cbn [i0 infinity_mass] in I1, M1. fold i0 in M1. unfold combine_inf in *. rewrite Mi in M1. unfold total in M1.
    destruct (pmf_self_total fast_len l n default_tail Wl) as [r2 E2]; try lra; try assumption.
    { apply size_positive. lra. }
    { right. replace (psum l (fun _ => 1)) with 1 by lra. rewrite pow1. lra. }
    destruct (tv_self fast_len l n default_tail r2 Hf Wl) as (T2 & W2 & D2 & P2 & M2); try assumption; try lra. unfold total in M2.
    assert (I2 : infinity_mass r2 <= 2 * default_tail).
    { pose proof E2 as E2'. apply self_compose_ok in E2'; try assumption; try lra. destruct (so_up _ _ _ _ E2' Pl (fun _ => 0) 1) as [_ U]; [intros ? ? ?; lra | intros; lra|].
      unfold ptest in U. rewrite psum_zero, pown_zero, Il in U. replace (1 - 0) with 1 in U by ring. rewrite pow1 in U. lra. }
    pose proof W1 as (_ & I10 & _). pose proof W2 as (_ & I20 & _).
    destruct (step_total r1 r2 (1 / 100)) as (r3 & E3 & T3 & W3 & D3 & P3 & M3 & I3); try assumption; try lra; [rewrite D1, D2, Dl; reflexivity|].
    set (A0 := mkAcc (mkPldState false (new_pld i0 None)) new_builder).
    assert (TV0 : tv i0 = 0). { unfold tv, i0. rewrite identity_delta by assumption. rewrite exp_0. unfold pos. apply Rmax_left. lra. }
    set (e := noise_events sd sens p n).
    exists A0, (mkAcc (mkPldState false (new_pld r3 None)) (fst (builder_compose new_builder e 1))).
    split; [reflexivity|]. split; [|split; [reflexivity|]].
    - assert (Q : 0 < sd / sens) by (apply Rdiv_lt_0_compat; assumption). assert (Q' : 0 < 1 / p) by (apply Rdiv_lt_0_compat; lra).
      assert (ML : forall dc s m, m = n -> cur_pld s = new_pld r1 None -> non_dp s = false -> mc dc s (Laplace (PyFloat (1 / p))) m = (if dc then mkPldState false (new_pld r3 None) else s, Fine)).
      { intros dc s m -> Hc Hn'. unfold cluster_mc, pld_accountant. cbn [pld_mc nval xeqb]. destruct dc; [|reflexivity]. rewrite Reqb_false by lra. rewrite El. unfold pld_charge, self_composed. cbn [bind].
        unfold pld_self_compose. cbn [new_pld pmf_remove symmetric]. rewrite E2. cbn [bind]. rewrite Hc. unfold pld_compose. cbn [new_pld pmf_remove symmetric andb]. rewrite E3. cbn [bind]. rewrite Hn'. reflexivity. }
      assert (MG : forall dc s, cur_pld s = new_pld i0 None -> non_dp s = false -> exists s', mc dc s (Gaussian (PyFloat (sd / sens))) 1 = (s', Fine) /\
        s' = if dc then mkPldState false (new_pld r1 None) else s).
      { intros dc s Hc Hn'. unfold cluster_mc, pld_accountant. cbn [pld_mc nval xeqb]. eexists. split; [|reflexivity]. destruct dc; [|reflexivity]. rewrite Reqb_false by lra. cbn [Z.ltb Z.eqb Z.compare].
        rewrite sqrt_1. cbn [xdiv]. rewrite Reqb_false by lra. replace (sd / sens / 1) with (sd / sens) by (field; lra). rewrite Eg. unfold pld_charge. cbn [bind]. rewrite Hc. unfold pld_compose. cbn [new_pld pmf_remove symmetric andb].
        rewrite E1. cbn [bind]. rewrite Hn'. reflexivity. }
      assert (ME : forall dc, mc dc (acc_state A0) e 1 = (if dc then mkPldState false (new_pld r3 None) else acc_state A0, Fine)).
      { intros dc. unfold e, noise_events. destruct (MG dc (acc_state A0) eq_refl eq_refl) as (s' & G & Es).
        change (mc dc (acc_state A0) (Composed [Gaussian (PyFloat (sd / sens)); run_event (Laplace (PyFloat (1 / p)), n)]) 1)
          with (let (s, r) := mc dc (acc_state A0) (Gaussian (PyFloat (sd / sens))) 1 in match r with Fine => let (s, r) := mc dc s (run_event (Laplace (PyFloat (1 / p)), n)) 1 in match r with Fine => (s, Fine) | _ => (s, r) end | _ => (s, r) end).
        rewrite G.
        assert (L : mc dc s' (run_event (Laplace (PyFloat (1 / p)), n)) 1 = (if dc then mkPldState false (new_pld r3 None) else acc_state A0, Fine)); [|rewrite L; reflexivity].
        assert (K : mc dc s' (Laplace (PyFloat (1 / p))) n = (if dc then mkPldState false (new_pld r3 None) else acc_state A0, Fine)).
        { destruct dc; subst s'; [apply ML; reflexivity | unfold cluster_mc, pld_accountant; reflexivity]. }
        cbn [run_event]. destruct (Z.eqb_spec n 1) as [->|N]; [exact K|].
        change (mc dc s' (SelfComposed (Laplace (PyFloat (1 / p))) n) 1) with (mc dc s' (Laplace (PyFloat (1 / p))) (n * 1)). rewrite Z.mul_1_r. exact K. }
      cbn [acc_compose]. rewrite (ME false). cbn [acc_state acc_ledger A0]. change (mkPldState false (new_pld i0 None)) with (acc_state A0). rewrite (ME true).
      unfold e, noise_events. cbn [builder_compose Z.ltb Z.compare fst]. reflexivity.
    - unfold pldacc_delta. cbn [acc_state non_dp cur_pld]. unfold pld_delta. cbn [new_pld symmetric pmf_remove]. change (pmf_delta r3 (Fin 0)) with (tv r3).
      assert (default_tail <= 1 / 10 ^ 15) by (unfold default_tail; lra). assert (1 / 10 ^ 14 = 10 * (1 / 10 ^ 15)) by field. rewrite TV0 in T1.
      assert (IZR n * tv l <= IZR n * (1 - exp (- (p / 2)))) by (apply Rmult_le_compat_l; [apply IZR_le; lia | exact Tl]). lra.
  Qed.
End Account.

(** ** An accepted calculator *)
Lemma e_bounds : 264 / 100 < exp 1 <= 3.
Proof.
  split; [|apply exp_le_3]. replace (exp 1) with (exp (1 / 20) ^ 20).
  - apply Rlt_le_trans with ((21 / 20) ^ 20); [lra|]. apply pow_incr. pose proof (exp_ineq1_le (1 / 20)). lra.
  - rewrite <- exp_pow_n || idtac. assert (X : forall n, exp (1 / 20) ^ n = exp (INR n * (1 / 20))).
    { induction n as [|n IH]; [cbn; rewrite Rmult_0_l, exp_0; reflexivity|]. cbn [pow]. rewrite IH, <- exp_plus. f_equal. rewrite S_INR. ring. }
    rewrite X. f_equal. cbn. lra.
Qed.
Section Accepted.
  Context (Phi ppf : R -> R) (mixture_pld : xr -> list xr -> list xr -> res pld) (fast_len : nat -> nat) (fuel : nat).
  Hypothesis HPhi : normal_cdf Phi.
  Hypothesis Hppf : quantile_of Phi ppf.
  Hypothesis Hf : forall k, (k <= fast_len k)%nat.

  Lemma accepted : new_calc 100 1 (Fin 1) = Ok (mkCalc 100 1 (Fin 1)) /\
    validate_accounting Phi ppf mixture_pld fast_len fuel (mkCalc 100 1 (Fin 1)) (Fin 0) (9 / 20) 0 = Ok tt.
  Proof.
    split. { unfold new_calc. rewrite Rltb_false, Rleb_false by lra. cbn [xleb]. rewrite Rleb_false by lra. reflexivity. }
    unfold validate_accounting, nonprivate. cbn [xeqb orb gaussian_std_dev laplace_param sensitivity]. rewrite (Rleb_false 1 (9 / 20)) by lra.
    assert (ME : make_clustering_event 100 (Fin 1) 1 0 = Ok (noise_events 100 1 1 1)).
    { unfold make_clustering_event, compose_or_raise. rewrite !Reqb_false by lra. reflexivity. }
    rewrite ME. cbn [bind].
    destruct (accounts Phi ppf mixture_pld fast_len fuel HPhi Hppf Hf 100 1 1 1) as (A0 & A & N & C & F & B); try lra; try lia.
    rewrite N. cbn [bind]. rewrite C. cbn [bind].
    assert (H2 : exp (- (1 / 2)) >= 577 / 1000).
    { apply Rle_ge, Rnot_lt_le. intros X. pose proof (exp_pos (- (1 / 2))). assert (exp (- (1 / 2)) * exp (- (1 / 2)) < 577 / 1000 * (577 / 1000)) by (apply Rmult_le_0_lt_compat; lra).
      rewrite <- exp_plus in H0. replace (- (1 / 2) + - (1 / 2)) with (- (1)) in H0 by lra. rewrite exp_Ropp in H0. assert (/ 3 <= / exp 1) by (apply Rinv_le_contravar; [apply exp_pos | apply exp_le_3]). lra. }
    assert (Bd : pldacc_delta (acc_state A) (Fin 0) < 9 / 20) by (assert (1 / 10 ^ 14 <= 1 / 1000) by lra; lra).
    destruct (noise_event_sound Phi ppf mixture_pld fast_len fuel HPhi Hppf Hf A0 100 1 1 1 A N (Z.le_refl 1) C) as [K|[W _]]; [congruence|].
    unfold pldacc_epsilon. unfold pldacc_delta in *. rewrite F in *. pose proof W as ((W1 & _) & (W2 & _) & HS).
    assert (I : forall p, wf p -> pmf_delta p (Fin 0) < 9 / 20 -> infinity_mass p < 9 / 20).
    { intros p Wp X. fold (tv p) in X. rewrite tv_psum in X by assumption. assert (0 <= psum p (hgain (discretization p) 0)); [|lra]. apply psum_nonneg; [assumption | intros; apply gain_01]. }
    assert (I1 : infinity_mass (pmf_remove (cur_pld (acc_state A))) < 9 / 20 /\ infinity_mass (pmf_add (cur_pld (acc_state A))) < 9 / 20).
    { unfold pld_delta in Bd. destruct (symmetric (cur_pld (acc_state A))) eqn:Sy; [rewrite HS by reflexivity; split; apply I; assumption|].
      apply Rmax_Rlt in Bd. split; apply I; tauto. }
    destruct (pld_epsilon_spec _ (9 / 20) W1 W2 HS) as [[_ [K|K]]|(_ & _ & e & E & E0 & _ & Sm)]; [lra | lra |].
    rewrite E. cbn [bind xltb].
    assert (e = 0). { apply Rle_antisym; [|exact E0]. apply Rnot_lt_le. intros X. specialize (Sm ltac:(left; tauto) ltac:(left; tauto) 0 ltac:(lra)). lra. }
    rewrite (Rltb_false 0 e) by lra. rewrite (Rltb_false (9 / 20)) by lra. reflexivity.
  Qed.

  Lemma not_private F : integer_noise (dlaplace_weights 1) F ->
    exists E, interaction (released_queries Phi 100 1 F 1) E /\ ~ dp E 0 (9 / 20).
  Proof.
    intros HF. assert (HF0 := HF). destruct HF0 as [_ [FL _]].
    assert (F = dlaplace_law 1) as -> by (apply functional_extensionality, (integer_noise_unique (dlaplace_weights 1)); [exact HF | apply dlaplace_noise; lra]).
    set (G1 := observe (sampled 1 (add_noise (normal_law Phi 100) 0) (add_noise (normal_law Phi 100) (0 + 0))) (add_noise (normal_law Phi 100) 0) []).
    set (G2 := observe (sampled 1 (add_noise (dlaplace_law 1) 0) (add_noise (dlaplace_law 1) (0 + -1))) (add_noise (dlaplace_law 1) 0) [-1]).
    exists (seq_exper (seq_exper silent (fun _ => G1)) (fun _ => G2)). split.
    - unfold released_queries. cbn [repeat]. apply (inter_snoc [_]); [apply (inter_snoc []); [apply inter_nil|]|]; intros _ _.
      + exists 0, 0, []. repeat split; [|constructor]. rewrite Rabs_R0. lra.
      + exists 0, (-1), [-1]. split; [exists 0%Z; reflexivity|]. split; [exists (-1)%Z; reflexivity|]. split; [rewrite Rabs_left; lra|].
        split; [repeat constructor | reflexivity].
    - intros H. apply dp_iff_hockey in H. unfold hockey_stick in H. cbn [seq_exper outs silent flat_map map G1 G2 observe cells combine app rsum prP prQ projT1 projT2 fst snd at_end] in H.
      unfold sampled, add_noise in H. rewrite exp_0 in H. replace (-1 - 0) with (IZR (0 - 1)) in H by (cbn; lra). replace (-1 - (0 + -1)) with (IZR 0) in H by (cbn; lra).
      pose proof (dl_step 1 ltac:(lra) 0) as ST. unfold dlaplace_law in H. rewrite !Rfloor_IZR in H. change (0 - 1)%Z with (-1)%Z in *. rewrite Rabs_R0, Rmult_0_r, exp_0, Rmult_1_r in ST.
      set (x := dlaplace_G 1 0) in *. set (y := dlaplace_G 1 (-1)) in *.
      assert (K : 9 / 20 < (exp 1 - 1) / (exp 1 + 1)). { pose proof e_bounds. apply (Rmult_lt_reg_r (exp 1 + 1)); [lra|]. replace ((exp 1 - 1) / (exp 1 + 1) * (exp 1 + 1)) with (exp 1 - 1) by (field; lra). lra. }
      unfold pos in H. pose proof (Rmax_l 0 (1 * (1 - 0) * (1 - ((1 - 1) * y + 1 * x)) - 1 * (1 * (1 - 0) * (1 - y)))).
      pose proof (Rmax_r 0 (1 * (1 - 0) * ((1 - 1) * y + 1 * x - 0) - 1 * (1 * (1 - 0) * (y - 0)))). lra.
  Qed.
End Accepted.

(** ** Examples *)
Lemma accept_example : exists Phi ppf, normal_cdf Phi /\ quantile_of Phi ppf /\ forall mixture_pld,
  new_calc 100 1 (Fin 1) = Ok (mkCalc 100 1 (Fin 1)) /\
  validate_accounting Phi ppf mixture_pld (fun k => k) 0 (mkCalc 100 1 (Fin 1)) (Fin 0) (9 / 20) 0 = Ok tt.
Proof.
  destruct normal_exists as (Phi & ppf & HP & HQ). exists Phi, ppf. split; [exact HP|]. split; [exact HQ|]. intros mixture_pld.
  apply accepted; [exact HP | exact HQ | intros; lia].
Qed.
Lemma discrete_refuted :
  exists (Phi ppf : R -> R) F, normal_cdf Phi /\ quantile_of Phi ppf /\ integer_noise (dlaplace_weights 1) F /\
  (forall mixture_pld, validate_accounting Phi ppf mixture_pld (fun k => k) 0 (mkCalc 100 1 (Fin 1)) (Fin 0) (9 / 20) 0 = Ok tt) /\
  exists E, interaction (released_queries Phi 100 1 F 1) E /\ ~ dp_both E 0 (9 / 20).
Proof.
  destruct accept_example as (Phi & ppf & HP & HQ & H). exists Phi, ppf, (dlaplace_law 1). split; [exact HP|]. split; [exact HQ|].
  assert (HF : integer_noise (dlaplace_weights 1) (dlaplace_law 1)) by (apply dlaplace_noise; lra). split; [exact HF|]. split; [intros m; apply H|].
  destruct (not_private Phi (dlaplace_law 1) HF) as (E & HE & N). exists E. split; [exact HE|]. intros [K _]. exact (N K).
Qed.
Lemma event_example : make_clustering_event 100 (Fin 1) 2 3 =
  Ok (Composed [Gaussian (PyFloat (100 / 2)); SelfComposed (Laplace (PyFloat (1 / 1))) 4]).
Proof. unfold make_clustering_event, compose_or_raise. rewrite !Reqb_false by lra. reflexivity. Qed.
Lemma event_nonprivate_example : make_clustering_event 100 PInf 2 3 = Ok (Composed [Gaussian (PyFloat (100 / 2)); NonPrivate]).
Proof. unfold make_clustering_event, compose_or_raise. rewrite !Reqb_false by lra. reflexivity. Qed.
Lemma noise_history_example : exists Phi ppf A0 A, normal_cdf Phi /\ quantile_of Phi ppf /\
  let h := [(Composed [Gaussian (PyFloat (100 / 1)); SelfComposed (Laplace (PyFloat (1 / 1))) 3], 1%Z)] in
  pld_new default_disc = Ok A0 /\
  runs (pld_accountant Phi ppf (fun _ _ _ => Err ValueError) (fun k => k) 0 ADD_OR_REMOVE_ONE default_disc) A0 h A /\
  pos_history h /\ Forall (noise_run default_disc) (history_runs h) /\
  exists E, interaction (run_classes (noise_event Phi ADD_OR_REMOVE_ONE) (history_runs h)) E.
Proof.
  destruct normal_exists as (Phi & ppf & HP & HQ).
  destruct (accounts Phi ppf (fun _ _ _ => Err ValueError) (fun k => k) 0 HP HQ ltac:(intros; lia) 100 1 1 3) as (A0 & A & N & C & F & B); try lra; try lia.
  exists Phi, ppf, A0, A. split; [exact HP|]. split; [exact HQ|]. cbn zeta. split; [exact N|]. split; [eapply runs_cons; [exact C | apply runs_nil]|].
  split; [apply (noise_pos 100 1 1 3); lia|].
  split; [apply Forall_cons; [reflexivity | apply Forall_cons; [exact Logic.I | apply Forall_nil]]|].
  assert (Q : forall L s, 0 < s -> exists E, noisy_query any_value L 1 s E).
  { intros L s Hs. eexists. exists 0, s, []. split; [exact Logic.I|]. split; [exact Logic.I|]. split; [rewrite Rabs_right; lra|]. split; [constructor | reflexivity]. }
  change (history_runs _) with [(Gaussian (PyFloat (100 / 1)), 1%Z); (Laplace (PyFloat (1 / 1)), 3%Z)].
  destruct (Q (normal_law Phi 100) 1 ltac:(lra)) as [E1 H1]. destruct (Q (laplace_law (1 / 1)) 1 ltac:(lra)) as [E2 H2].
  exists (seq_exper (seq_exper (seq_exper (seq_exper silent (fun _ => E1)) (fun _ => E2)) (fun _ => E2)) (fun _ => E2)).
  eapply interaction_le; [|apply (queries_le Phi 100 1 1 3); lra]. unfold clustering_queries. change (Z.to_nat 3) with 3%nat. cbn [repeat].
  apply (inter_snoc [_; _; _]); [apply (inter_snoc [_; _]); [apply (inter_snoc [_]); [apply (inter_snoc []); [apply inter_nil|]|]|]|]; intros _ _; assumption.
Qed.

(** ** the interval of the search *)
Lemma alpha_interval Phi ppf fuel eps delta radius m iv :
  get_alpha_interval Phi ppf fuel eps delta radius m = Ok iv ->
  exists e sd a, eps = Fin e /\ 0 <= e /\ 0 <= delta <= 1 /\
    smallest_gaussian_noise Phi ppf fuel (e, delta) 1 radius = Ok (Fin sd) /\
    get_gaussian_std_dev m a radius = sd /\ iv = LowerAndGuess a (2 * a).
Proof.
  unfold get_alpha_interval. destruct (nonprivate eps delta); [discriminate|].
  destruct eps as [e| | |]; try discriminate. unfold privacy_parameters.
  destruct (Rltb_spec e 0); [discriminate|]. destruct (Rltb_spec delta 0); [discriminate|].
  destruct (Rltb_spec 1 delta); [discriminate|]. cbn [orb bind].
  destruct (smallest_gaussian_noise Phi ppf fuel (e, delta) 1 radius) as [sd|] eqn:SM; [|discriminate]. cbn [bind].
  unfold get_alpha. destruct (Reqb_spec (radius * gaussian_multiplier m) 0) as [|N]; [discriminate|]. cbn [bind].
  destruct sd as [sd| | |]; cbn [xdiv xneg];
    try (repeat match goal with |- context [if ?b then _ else _] => destruct b end; discriminate).
  destruct (Reqb_spec (radius * gaussian_multiplier m) 0) as [|_]; [contradiction|]. intros H. injection H as <-.
  exists e, sd, (sd / (radius * gaussian_multiplier m)).
  split; [reflexivity|]. split; [lra|]. split; [lra|]. split; [exact SM|]. split; [|reflexivity].
  unfold get_gaussian_std_dev. field. split; intros Z; apply N; rewrite Z; ring.
Qed.
