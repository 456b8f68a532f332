(** A privacy calculator that is constructed successfully. *)
From Coq Require Import FunctionalExtensionality.
From Verif Require Import Base XReal Exn PyDict TypesEvent TypesRelation TypesAdjacency TypesCluster ModelBuilder ModelPmf ModelPld ModelMake ModelMech ModelNoise
  ModelAccountant ModelSearch ModelCalculator
  SpecDP SpecPmf SpecPld SpecMake SpecMech SpecClasses SpecConstruct SpecAccountant SpecAccPld SpecSearch SpecNoiseAcc SpecCalculator
  ProofDP ProofDict ProofPmf ProofPld ProofPldApi ProofCal ProofAccGen ProofAccSound ProofConstructEx ProofAdvanced ProofNormal ProofGdp ProofGdpConv ProofGdpSeq ProofPeak
  ProofGaussNoise ProofGaussTotal ProofNoiseAcc ProofTv ProofCalculator ProofCalcEx.
Local Open Scope R_scope.
Local Arguments Rltb : simpl never.
Local Arguments Rleb : simpl never.
Local Arguments Reqb : simpl never.

Section Run.
  Context (Phi ppf : R -> R) (mixture_pld : xr -> list xr -> list xr -> res pld) (fast_len : nat -> nat) (fuel : nat).
  Hypothesis HPhi : normal_cdf Phi.
  Hypothesis Hppf : quantile_of Phi ppf.
  Hypothesis Hf : forall k, (k <= fast_len k)%nat.
  Notation mc := (cluster_mc Phi ppf mixture_pld fast_len fuel).

  (** The epsilon that is accounted for an event. *)
  Lemma event_epsilon A0 sd sens p n delta : pld_new default_disc = Ok A0 -> 0 < sd -> 0 < sens -> 0 < p -> (1 <= n)%Z -> 0 < delta < 1 ->
    exists v, fresh_epsilon mc pldacc_epsilon A0 (noise_events sd sens p n) delta = Ok v /\ (v = PInf \/ exists e, v = Fin e /\ 0 <= e) /\
      (101 / 100 * (2 * (sens / sd) + IZR n * (1 - exp (- (p / 2)))) + 1 / 10 ^ 14 < delta -> v = Fin 0) /\
      (forall eps E, xleb v (Fin eps) = true -> interaction (clustering_queries Phi sd sens (1 / p) (Z.to_nat n)) E -> dp_both E eps delta).
  Proof.
    intros N Hsd Hs Hp Hn Hd.
    destruct (accounts Phi ppf mixture_pld fast_len fuel HPhi Hppf Hf sd sens p n Hsd Hs Hp Hn) as (A0' & A & N' & C & F & B).
    rewrite N in N'. injection N' as <-. unfold fresh_epsilon. rewrite C. cbn [bind].
    destruct (noise_event_sound Phi ppf mixture_pld fast_len fuel HPhi Hppf Hf A0 sd sens p n A N Hn C) as [K|[W BD]]; [congruence|].
    unfold pldacc_epsilon. unfold pldacc_delta in *. rewrite F in *. pose proof W as ((W1 & _) & (W2 & _) & HS).
    destruct (pld_epsilon_spec _ delta W1 W2 HS) as [[E I]|(_ & _ & e & E & E0 & ED & Sm)]; rewrite E.
    - exists PInf. split; [reflexivity|]. split; [left; reflexivity|]. split; [|intros ? ? L; discriminate L]. intros L. exfalso.
      assert (L0 : pld_delta (cur_pld (acc_state A)) (Fin 0) < delta) by lra.
      assert (J : forall q, wf q -> pmf_delta q (Fin 0) < delta -> infinity_mass q < delta).
      { intros q Wq X. fold (tv q) in X. rewrite tv_psum in X by assumption. assert (0 <= psum q (hgain (discretization q) 0)); [|lra]. apply psum_nonneg; [assumption | intros; apply gain_01]. }
      unfold pld_delta in L0. destruct (symmetric (cur_pld (acc_state A))) eqn:Sy.
      + rewrite HS in I by reflexivity. apply J in L0; [|assumption]. lra.
      + apply Rmax_Rlt in L0. destruct L0 as [X Y]. apply J in X; [|assumption]. apply J in Y; [|assumption]. lra.
    - exists (Fin e). split; [reflexivity|]. split; [right; eauto|]. split.
      + intros L. f_equal. apply Rle_antisym; [|exact E0]. apply Rnot_lt_le. intros X.
        assert (L0 : pld_delta (cur_pld (acc_state A)) (Fin 0) < delta) by lra.
        assert (J : forall q, wf q -> pmf_delta q (Fin 0) < delta -> infinity_mass q < delta).
        { intros q Wq Y. fold (tv q) in Y. rewrite tv_psum in Y by assumption. assert (0 <= psum q (hgain (discretization q) 0)); [|lra]. apply psum_nonneg; [assumption | intros; apply gain_01]. }
        assert (I : infinity_mass (pmf_remove (cur_pld (acc_state A))) < delta /\ infinity_mass (pmf_add (cur_pld (acc_state A))) < delta).
        { unfold pld_delta in L0. destruct (symmetric (cur_pld (acc_state A))) eqn:Sy; [rewrite HS by reflexivity; split; apply J; assumption|].
          apply Rmax_Rlt in L0. split; apply J; tauto. }
        specialize (Sm ltac:(left; tauto) ltac:(left; tauto) 0 ltac:(lra)). lra.
      + intros eps E' L HE. cbn [xleb] in L. destruct (Rleb_spec e eps) as [Le|]; [|discriminate].
        assert (HE' : interaction (run_classes (noise_event Phi ADD_OR_REMOVE_ONE) [(Gaussian (PyFloat (sd / sens)), 1%Z); (Laplace (PyFloat (1 / p)), n)]) E')
          by (eapply interaction_le; [exact HE | apply queries_le; assumption]).
        specialize (BD E' HE'). destruct (wide_delta_sound _ _ eps W BD) as [Y Z].
        assert (D : pld_delta (cur_pld (acc_state A)) (Fin eps) <= delta) by (eapply Rle_trans; [apply pld_monotone; [split; [|split]; assumption | exact Le] | exact ED]).
        destruct BD as [VE _]. split; eapply dp_mono; try apply Y; try apply Z; try lra; auto. apply valid_swap; assumption.
  Qed.
  Lemma from_param A0 gm lm a sens depth delta : pld_new default_disc = Ok A0 -> 0 < gm -> 0 < lm -> 0 < a -> 0 < sens -> (0 <= depth)%Z -> 0 < delta < 1 ->
    exists v, param_epsilon mc pldacc_epsilon A0 (make_clustering_event_from_param (mkMult gm lm) sens depth) (PyFloat a) delta = Ok v /\ (v = PInf \/ exists e, v = Fin e /\ 0 <= e) /\
      (101 / 100 * (2 * (1 / (gm * a)) + IZR (depth + 1) * (1 - exp (- (1 / (lm * a) / 2)))) + 1 / 10 ^ 14 < delta -> v = Fin 0) /\
      (forall eps E, xleb v (Fin eps) = true -> interaction (clustering_queries Phi (gm * a * sens) sens (lm * a) (Z.to_nat (depth + 1))) E -> dp_both E eps delta).
  Proof.
    intros N Hg Hl Ha Hs Hd Hdl. assert (P1 : 0 < gm * a * sens) by (repeat apply Rmult_lt_0_compat; assumption). assert (P2 : 0 < lm * a) by (apply Rmult_lt_0_compat; assumption).
    assert (P3 : 0 < 1 / (lm * a)) by (apply Rdiv_lt_0_compat; lra). assert (P4 : 0 < gm * a) by (apply Rmult_lt_0_compat; assumption).
    unfold param_epsilon, make_clustering_event_from_param. cbn [nval]. unfold get_laplace_param, get_gaussian_std_dev. cbn [gaussian_multiplier laplace_multiplier]. rewrite Reqb_false by lra. cbn [bind].
    assert (ME : make_clustering_event (gm * a * sens) (Fin (1 / (lm * a))) sens depth = Ok (noise_events (gm * a * sens) sens (1 / (lm * a)) (depth + 1))).
    { unfold make_clustering_event, compose_or_raise. rewrite !Reqb_false by lra. cbn [builder_compose Z.ltb Z.compare bind]. unfold noise_events, run_event.
      destruct (Z.ltb_spec (depth + 1) 1) as [L|L]; [lia|]. cbn [bind]. destruct (Z.eqb_spec (depth + 1) 1) as [E|E]; [rewrite E; reflexivity|].
      assert (depth + 1 <> 1)%Z by exact E. cbn. destruct (depth + 1)%Z as [|[q|q|]|q] eqn:ED; try lia; reflexivity. }
    rewrite ME. cbn [bind].
    destruct (event_epsilon A0 _ sens _ (depth + 1) delta N P1 Hs P3 ltac:(lia) Hdl) as (v & V & K & Z & D). exists v. split; [exact V|]. split; [exact K|]. split.
    - replace (sens / (gm * a * sens)) with (1 / (gm * a)) in Z by (field; repeat split; lra). exact Z.
    - intros eps E L HE. apply (D eps E L). replace (1 / (1 / (lm * a))) with (lm * a) by (field; repeat split; lra). exact HE.
  Qed.

  (** The widening search stops at the first value that is not positive. *)
  Lemma bracket_first f : (forall x, 0 < x -> exists v, f x = Ok v /\ (v = PInf \/ exists e, v = Fin e)) ->
    forall n m lower lv uv, (m <= n)%nat -> 0 < lower -> f lower = Ok lv -> positive lv -> f (2 * lower) = Ok uv ->
    (exists v, f (2 ^ S m * lower) = Ok v /\ negative v) ->
    exists a b v, bracket_loop f n lower lower (2 * lower) lv uv = Ok (a, b) /\ 0 < b /\ f b = Ok v /\ xltb (Fin 0) v = false.
  Proof.
    intros T. induction n as [|n IH]; intros m lower lv uv Hm P Fl Pl Fu (v & Fv & Nv).
    - assert (m = O) by lia. subst m. replace (2 ^ 1 * lower) with (2 * lower) in Fv by (cbn; ring). rewrite Fu in Fv. injection Fv as ->.
      cbn [bracket_loop]. destruct (xltb (Fin 0) (xmul lv v)) eqn:Sg.
      + exfalso. apply prod_pos in Sg. unfold same_sign, positive, negative in *. destruct Sg as [[_ Sg]|[Sg _]]; [destruct v | destruct lv]; cbn in *; try discriminate; destruct (Rltb_spec r 0), (Rltb_spec 0 r); try discriminate; lra.
      + exists lower, (2 * lower), v. split; [reflexivity|]. split; [lra|]. split; [exact Fu|]. unfold negative in Nv. destruct v; cbn in *; try discriminate; try reflexivity. destruct (Rltb_spec r 0); [|discriminate]. apply Rltb_false. lra.
    - cbn [bracket_loop]. destruct (xltb (Fin 0) (xmul lv uv)) eqn:Sg.
      + apply prod_pos in Sg. assert (Pu : positive uv).
        { destruct Sg as [[_ Sg]|[Sg _]]; [exact Sg|]. exfalso. unfold positive, negative in *. destruct lv; cbn in *; try discriminate. destruct (Rltb_spec r 0), (Rltb_spec 0 r); try discriminate; lra. }
        destruct (T (2 * (2 * lower))) as (w & Fw & _); [lra|].
        replace (lower * 2) with (2 * lower) by ring. replace (2 * lower + 2 * lower) with (2 * (2 * lower)) by ring. rewrite Fw. cbn [bind].
        destruct m as [|m].
        * exfalso. replace (2 ^ 1 * lower) with (2 * lower) in Fv by (cbn; ring). rewrite Fu in Fv. injection Fv as ->. unfold positive, negative in *. destruct v; cbn in *; try discriminate. destruct (Rltb_spec r 0), (Rltb_spec 0 r); try discriminate; lra.
        * apply (IH m (2 * lower) uv w); try assumption; try lia; try lra. exists v. split; [|exact Nv]. replace (2 ^ S m * (2 * lower)) with (2 ^ S (S m) * lower) by (cbn [pow]; ring). exact Fv.
      + exists lower, (2 * lower), uv. split; [reflexivity|]. split; [lra|]. split; [exact Fu|].
        destruct (xltb (Fin 0) uv) eqn:Pu; [|reflexivity]. assert (xltb (Fin 0) (xmul lv uv) = true) by (apply prod_pos; left; split; assumption). congruence.
  Qed.

  (** The standard deviation of Gaussian noise for (1, 9/20)-DP cannot be tiny. *)
  Lemma tail_small mu : 0 < mu -> Phi (- mu) * exp (mu * mu / 2) <= 1.
  Proof.
    intros Hm. pose proof (peak Phi HPhi mu 1 (exp (mu * mu / 2)) Hm ltac:(lra) (exp_pos _)) as PK.
    assert (T : thr mu 1 (exp (mu * mu / 2)) = - mu) by (unfold thr; replace (exp (mu * mu / 2) / 1) with (exp (mu * mu / 2)) by field; rewrite ln_exp; field; lra).
    rewrite T in PK. pose proof (peaked_best _ _ _ PK MInf ltac:(discriminate)) as B. cbn [hend] in B. unfold test in B.
    replace (- mu + mu) with 0 in B by ring. pose proof (phi_range Phi HPhi 0). lra.
  Qed.
  Lemma sigma_lower sigma : 0 < sigma -> (forall E, noisy_query any_value (fun y => Phi (y / sigma)) 1 1 E -> dp_both E 1 (9 / 20)) -> 1 / 10 <= sigma.
  Proof.
    intros Hs B. apply Rnot_lt_le. intros L.
    set (mu := 1 / (2 * sigma)). assert (Hm : 5 <= mu).
    { unfold mu. apply (Rmult_le_reg_r (2 * sigma)); [lra|]. replace (1 / (2 * sigma) * (2 * sigma)) with 1 by (field; lra). lra. }
    assert (Q : noisy_query any_value (fun y => Phi (y / sigma)) 1 1 (observe (sampled 1 (add_noise (fun y => Phi (y / sigma)) 0) (add_noise (fun y => Phi (y / sigma)) (0 + -1))) (add_noise (fun y => Phi (y / sigma)) 0) [- (1 / 2)])).
    { exists 0, (-1), [- (1 / 2)]. repeat split; [rewrite Rabs_left; lra | repeat constructor]. }
    destruct (B _ Q) as [B1 _]. apply dp_iff_hockey in B1. rewrite hockey_hs in B1.
    pose proof (half_line (sampled 1 (add_noise (fun y => Phi (y / sigma)) 0) (add_noise (fun y => Phi (y / sigma)) (0 + -1))) (add_noise (fun y => Phi (y / sigma)) 0) (- (1 / 2)) 1 (exp 1)) as HL.
    unfold sampled, add_noise in HL, B1. replace ((- (1 / 2) - (0 + -1)) / sigma) with mu in HL by (unfold mu; field; lra). replace ((- (1 / 2) - 0) / sigma) with (- mu) in HL by (unfold mu; field; lra).
    pose proof (ProofShapeGauss.normal_mirror Phi HPhi mu) as M. pose proof (tail_small mu ltac:(lra)) as T. pose proof exp_le_3 as E3.
    assert (X : 13 <= exp (mu * mu / 2)). { pose proof (exp_ineq1_le (mu * mu / 2)). nra. }
    pose proof (phi_range Phi HPhi (- mu)). assert (13 * Phi (- mu) <= 1) by nra.
    assert (exp 1 * Phi (- mu) <= 3 * Phi (- mu)) by (apply Rmult_le_compat_r; lra). lra.
  Qed.
End Run.

Lemma laplace_half p : 0 < p -> 3 * exp (- p) < 1 / 10 -> forall Phi sd, exists E, interaction (clustering_queries Phi sd 1 (1 / p) 1) E /\ ~ dp E 1 (9 / 20).
Proof.
  intros Hp Hsm Phi sd.
  set (G1 := observe (sampled 1 (add_noise (normal_law Phi sd) 0) (add_noise (normal_law Phi sd) (0 + 0))) (add_noise (normal_law Phi sd) 0) []).
  set (G2 := observe (sampled 1 (add_noise (laplace_law (1 / p)) 0) (add_noise (laplace_law (1 / p)) (0 + -1))) (add_noise (laplace_law (1 / p)) 0) [-1]).
  exists (seq_exper (seq_exper silent (fun _ => G1)) (fun _ => G2)). split.
  - unfold clustering_queries. cbn [repeat]. apply (inter_snoc [_]); [apply (inter_snoc []); [apply inter_nil|]|]; intros _ _.
    + exists 0, 0, []. repeat split; [|constructor]. rewrite Rabs_R0. lra.
    + exists 0, (-1), [-1]. repeat split; [rewrite Rabs_left; lra | repeat constructor].
  - intros H. apply dp_iff_hockey in H. unfold hockey_stick in H. cbn [seq_exper outs silent flat_map map G1 G2 observe cells combine app rsum prP prQ projT1 projT2 fst snd at_end] in H.
    unfold sampled, add_noise in H. replace (-1 - 0) with (-1) in H by lra. replace (-1 - (0 + -1)) with 0 in H by lra.
    assert (L0 : laplace_law (1 / p) 0 = 1 / 2). { unfold laplace_law. rewrite Rltb_false by lra. replace (- 0 / (1 / p)) with 0 by (field; lra). rewrite exp_0. lra. }
    assert (L1 : laplace_law (1 / p) (-1) = exp (- p) / 2). { unfold laplace_law. rewrite Rltb_true by lra. f_equal. f_equal. field. lra. }
    rewrite L0, L1 in H. pose proof exp_le_3. pose proof (exp_pos (- p)). assert (exp 1 * exp (- p) <= 3 * exp (- p)) by (apply Rmult_le_compat_r; lra).
    unfold pos in H. match type of H with context [Rmax 0 ?x + (Rmax 0 ?y + 0)] => pose proof (Rmax_r 0 x); pose proof (Rmax_l 0 y) end. lra.
Qed.

Lemma calculator_example : exists Phi ppf mixture_pld fuel brentq m c, normal_cdf Phi /\ quantile_of Phi ppf /\
  0 < gaussian_multiplier m /\ 0 < laplace_multiplier m /\
  new_calculator Phi ppf mixture_pld (fun k => k) fuel brentq (Fin 1) (9 / 20) 1 0 m = Ok c.
Proof.
  destruct normal_exists as (Phi & ppf & HP & HQ).
  assert (PP : privacy_parameters 1 (9 / 20) = Ok (1, 9 / 20)).
  { unfold privacy_parameters. destruct (Rltb_spec 1 0); [lra|]. destruct (Rltb_spec (9 / 20) 0); [lra|]. destruct (Rltb_spec 1 (9 / 20)); [lra|]. reflexivity. }
  destruct (gaussian_noise_total Phi ppf HP 1 (9 / 20) _ 1 1 PP) as (fuel & x & HF); try lra; try lia. specialize (HF fuel (le_n _)). cbn beta in HF.
  destruct (gaussian_noise_sound Phi HP ppf fuel 1 (9 / 20) _ 1 1 x PP ltac:(lia) ltac:(lra) HF) as (sigma & -> & Hs & B).
  assert (LS : 1 / 10 <= sigma).
  { apply (sigma_lower Phi HP sigma Hs). intros E HE. assert (V : valid E) by (destruct (plain_gdom Phi HP sigma 1 E Hs ltac:(lra) HE) as [[V _] _]; exact V).
    specialize (B (seq_exper silent (fun _ => E))). change (Z.to_nat 1) with 1%nat in B. cbn [repeat] in B.
    specialize (B (inter_snoc [] silent _ (fun _ => E) inter_nil (fun _ _ => HE))).
    destruct B as [B1 B2]. split; apply dp_iff_hockey; rewrite hockey_hs.
    - apply dp_iff_hockey in B1. rewrite hockey_hs, hs_seq in B1. cbn [outs silent rsum prP prQ] in B1. rewrite !Rmult_1_r, Rplus_0_r in B1. exact B1.
    - apply dp_iff_hockey in B2. rewrite hockey_hs in B2. eapply Rle_trans; [|exact B2]. right. symmetry.
      transitivity (hs (seq_exper silent (fun _ => swap E)) 1 (exp 1)).
      + unfold hs. cbn [seq_exper silent swap outs flat_map prP prQ]. rewrite !app_nil_r. apply rsum_ext. intros [? ?] _. reflexivity.
      + rewrite hs_seq. cbn [outs silent rsum prP prQ]. rewrite !Rmult_1_r, Rplus_0_r. reflexivity. }
  set (m := mkMult 1 (1 / (20 * sigma))). set (mix := fun (_ : xr) (_ _ : list xr) => @Err pld ValueError).
  set (mc := cluster_mc Phi ppf mix (fun k => k) fuel).
  destruct (pld_new default_disc) as [A0|] eqn:N; [|discriminate].
  set (f := epsilon_gap mc pldacc_epsilon A0 (make_clustering_event_from_param m 1 0) false 1 (9 / 20)).
  assert (PL : 0 < 1 / (20 * sigma)) by (apply Rdiv_lt_0_compat; lra).
  assert (G : forall a, 0 < a -> exists v, f a = Ok (xsub v (Fin 1)) /\ (v = PInf \/ exists e, v = Fin e /\ 0 <= e) /\
      (101 / 100 * (2 * (1 / (1 * a)) + IZR (0 + 1) * (1 - exp (- (1 / (1 / (20 * sigma) * a) / 2)))) + 1 / 10 ^ 14 < 9 / 20 -> v = Fin 0) /\
      (forall eps E, xleb v (Fin eps) = true -> interaction (clustering_queries Phi (1 * a * 1) 1 (1 / (20 * sigma) * a) (Z.to_nat (0 + 1))) E -> dp_both E eps (9 / 20))).
  { intros a Ha. destruct (from_param Phi ppf mix (fun k => k) fuel HP HQ (fun k => le_n k) A0 1 (1 / (20 * sigma)) a 1 0 (9 / 20) N) as (v & V & R1 & R2 & R3); try lra; try lia.
    exists v. split; [|split; [exact R1 | split; [exact R2 | exact R3]]]. unfold f. apply gap_total; [|exact V]. injection N as <-. reflexivity. }
  assert (T : forall a, 0 < a -> exists v, f a = Ok v /\ (v = PInf \/ exists e, v = Fin e)).
  { intros a Ha. destruct (G a Ha) as (v & V & K & _). eexists. split; [exact V|]. destruct K as [->|(e & -> & _)]; cbn; eauto. }
  assert (LOW : exists lv, f sigma = Ok lv /\ positive lv).
  { destruct (G sigma Hs) as (v & V & K & _ & D). eexists. split; [exact V|]. unfold positive.
    destruct (xltb (Fin 0) (xsub v (Fin 1))) eqn:S; [reflexivity|]. exfalso.
    assert (L : xleb v (Fin 1) = true). { apply xsub_not_pos; [|exact S]. destruct K as [->|(e & -> & _)]; discriminate. }
    replace (1 / (20 * sigma) * sigma) with (1 / 20) in D by (field; lra).
    destruct (laplace_half 20 ltac:(lra)) with (Phi := Phi) (sd := 1 * sigma * 1) as (E & HE & NE).
    { rewrite exp_Ropp. assert (X : 31 < exp 20). { replace 20 with (5 + (5 + (5 + 5))) by ring. rewrite !exp_plus. pose proof (exp_ineq1_le 5). assert (36 <= exp 5 * exp 5) by nra. assert (1 <= exp 5 * exp 5) by lra. replace (exp 5 * (exp 5 * (exp 5 * exp 5))) with ((exp 5 * exp 5) * (exp 5 * exp 5)) by ring. assert (36 * 1 <= exp 5 * exp 5 * (exp 5 * exp 5)) by (apply Rmult_le_compat; lra). lra. } 
      assert (/ exp 20 < / 31) by (apply Rinv_lt_contravar; [apply Rmult_lt_0_compat|]; lra). lra. }
    apply NE. apply (D 1 E L HE). }
  assert (HIGH : exists v, f (2 ^ 11 * sigma) = Ok v /\ negative v).
  { destruct (G (2 ^ 11 * sigma)) as (v & V & _ & Z & _); [cbn; lra|]. eexists. split; [exact V|]. rewrite Z.
    - unfold negative. cbn. apply Rltb_true. lra.
    - replace (1 / (1 / (20 * sigma) * (2 ^ 11 * sigma)) / 2) with (10 / 2 ^ 11) by (field; lra).
      pose proof (exp_ineq1_le (- (10 / 2 ^ 11))). assert (1 / (1 * (2 ^ 11 * sigma)) <= 1 / 100).
      { apply (Rmult_le_reg_r (1 * (2 ^ 11 * sigma))); [cbn; lra|]. replace (1 / (1 * (2 ^ 11 * sigma)) * (1 * (2 ^ 11 * sigma))) with 1 by (field; lra). cbn. lra. }
      assert (10 / 2 ^ 11 <= 1 / 100) by (cbn; lra). assert (1 / 10 ^ 14 <= 1 / 1000) by lra. change (IZR (0 + 1)) with 1. lra. }
  destruct LOW as (lv & Fl & Pl). destruct (T (2 * sigma) ltac:(lra)) as (uv & Fu & _).
  destruct (bracket_first f T 30 10 sigma lv uv ltac:(lia) Hs Fl Pl Fu HIGH) as (a & b & v & BL & Pb & Fb & Nb).
  set (brentq := fun (_ : R -> res xr) (_ b _ : R) => BrentRoot b true).
  assert (CAL : calibrate mc pldacc_epsilon A0 (make_clustering_event_from_param m 1 0) brentq fuel 1 (9 / 20) (LowerAndGuess sigma (2 * sigma)) false None = Ok (PyFloat b)).
  { unfold calibrate. rewrite (Rltb_false 1 0) by lra. rewrite (Rleb_true 0 (9 / 20)), (Rleb_true (9 / 20) 1) by lra. cbn [andb negb bind]. fold f.
    unfold bracket_search. rewrite Rleb_false by lra. rewrite Fl, Fu. cbn [bind]. replace (2 * sigma - sigma) with sigma by ring. rewrite BL. cbn [bind]. unfold brentq. rewrite Fb. cbn [bind]. rewrite Nb. reflexivity. }
  assert (GA : get_alpha_interval Phi ppf fuel (Fin 1) (9 / 20) 1 m = Ok (LowerAndGuess sigma (2 * sigma))).
  { unfold get_alpha_interval, nonprivate. cbn [xeqb orb]. rewrite (Rleb_false 1 (9 / 20)) by lra. rewrite PP. cbn [bind]. rewrite HF. cbn [bind]. unfold get_alpha, m. cbn [gaussian_multiplier].
    rewrite Reqb_false by lra. cbn [bind xdiv]. rewrite Reqb_false by lra. replace (sigma / (1 * 1)) with sigma by (field). reflexivity. }
  assert (NC : exists c, new_calculator Phi ppf mix (fun k => k) fuel brentq (Fin 1) (9 / 20) 1 0 m = Ok c).
  { unfold new_calculator, nonprivate. cbn [xeqb orb]. rewrite (Rleb_false 1 (9 / 20)) by lra. rewrite GA. cbn [bind]. rewrite N. cbn [bind]. fold mc. rewrite CAL. cbn [bind nval].
    unfold get_laplace_param, m. cbn [laplace_multiplier]. assert (P : 0 < 1 / (20 * sigma) * b) by (apply Rmult_lt_0_compat; assumption). rewrite Reqb_false by lra. cbn [bind].
    unfold new_calc, get_gaussian_std_dev. cbn [gaussian_multiplier]. rewrite Rltb_false by lra. rewrite Rleb_false by lra. cbn [xleb]. rewrite Rleb_false; [eauto|]. apply Rdiv_lt_0_compat; lra. }
  destruct NC as [c NC]. exists Phi, ppf, mix, fuel, brentq, m, c. split; [exact HP|]. split; [exact HQ|]. split; [cbn; lra|]. split; [exact PL | exact NC].
Qed.
