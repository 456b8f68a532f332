(** The privacy calculator of the clustering. *)
From Coq Require Import FunctionalExtensionality.
From Verif Require Import Base XReal Exn PyDict TypesEvent TypesRelation TypesCluster SpecEvent ModelBuilder ModelPmf ModelPld ModelMake ModelMech ModelNoise ModelAccountant
  ModelSearch ModelCluster ModelCalculator SpecDP SpecPmf SpecPld SpecMake SpecMech SpecConstruct SpecAccountant SpecAccPld SpecSearch SpecNoiseAcc SpecCalculator
  ProofDP ProofPmf ProofPld ProofPldApi ProofAccGen ProofAccPld ProofAccSound ProofCal ProofSearchEx ProofFindNoise ProofInfluence ProofNoiseAcc.
Local Arguments Rltb : simpl never.
Local Arguments Rleb : simpl never.
Local Arguments Reqb : simpl never.

(** ** The event *)
Definition noise_events (sd sens p : R) (n : Z) : event num :=
  Composed [Gaussian (PyFloat (sd / sens)); run_event (Laplace (PyFloat (1 / p)), n)].
Lemma make_event_inv sd param sens depth e : make_clustering_event sd param sens depth = Ok e ->
  (exists p, sd <> 0 /\ sens <> 0 /\ param = Fin p /\ p <> 0 /\ (1 <= depth + 1)%Z /\ e = noise_events sd sens p (depth + 1)) \/
  ((sd = 0 \/ param = PInf) /\ In NonPrivate (atoms e)).
Proof.
  unfold make_clustering_event, compose_or_raise. destruct (Reqb_spec sd 0) as [S|S].
  - cbn [builder_compose Z.ltb Z.compare bind new_builder event_counts push_count rev].
    destruct param as [p| | |]; try discriminate.
    + destruct (Reqb p 0); [discriminate|]. cbn [builder_compose]. destruct (Z.ltb_spec (depth + 1) 1) as [L|L]; cbn [bind]; [discriminate|].
      cbn [event_counts push_count rev app event_eqb builder_build composed_event snd composed_of map run_event Z.eqb]. intros [= <-].
      right. split; [auto|]. left. reflexivity.
    + cbn [builder_compose Z.ltb Z.compare bind event_counts push_count rev app event_eqb Z.add builder_build composed_event snd composed_of map run_event Z.eqb Pos.eqb]. intros [= <-].
      right. split; [auto|]. left. reflexivity.
  - destruct (Reqb_spec sens 0) as [S'|S']; [discriminate|]. cbn [builder_compose Z.ltb Z.compare bind new_builder event_counts push_count rev].
    destruct param as [p| | |]; try discriminate.
    + destruct (Reqb_spec p 0) as [P|P]; [discriminate|]. cbn [builder_compose]. destruct (Z.ltb_spec (depth + 1) 1) as [L|L]; cbn [bind]; [discriminate|].
      cbn [event_counts push_count rev app event_eqb builder_build composed_event snd composed_of map run_event Z.eqb]. intros [= <-].
      left. exists p. repeat split; try assumption.
    + cbn [builder_compose Z.ltb Z.compare bind event_counts push_count rev app event_eqb Z.add builder_build composed_event snd composed_of map run_event Z.eqb Pos.eqb]. intros [= <-].
      right. split; [auto|]. right. left. reflexivity.
Qed.
Lemma noise_runs sd sens p n : history_runs [(noise_events sd sens p n, 1%Z)] = [(Gaussian (PyFloat (sd / sens)), 1%Z); (Laplace (PyFloat (1 / p)), n)].
Proof.
  unfold history_runs, noise_events. cbn [flat_map fst snd runs_of app run_event].
  destruct (Z.eqb_spec n 1) as [->|N]; cbn [runs_of app]; [reflexivity|]. rewrite Z.mul_1_r. reflexivity.
Qed.
Lemma noise_pos sd sens p n : (1 <= n)%Z -> pos_history [(noise_events sd sens p n, 1%Z)].
Proof.
  intros H. constructor; [|constructor]. cbn [fst snd]. split; [lia|]. unfold noise_events. cbn [pos_counts run_event].
  destruct (n =? 1)%Z; cbn; auto.
Qed.

Lemma new_calc_inv sd sens param c : new_calc sd sens param = Ok c ->
  c = mkCalc sd sens param /\ 0 <= sd /\ 0 < sens /\ xleb param (Fin 0) = false.
Proof.
  unfold new_calc. destruct (Rltb_spec sd 0); [discriminate|]. destruct (Rleb_spec sens 0); [discriminate|]. destruct (xleb param (Fin 0)) eqn:E; [discriminate|].
  intros [= <-]. repeat split; try assumption; lra.
Qed.

Section Calc.
  Context (Phi ppf : R -> R) (mixture_pld : xr -> list xr -> list xr -> res pld) (fast_len : nat -> nat) (fuel : nat).
  Context (brentq : (R -> res xr) -> R -> R -> R -> brent_out).
  Hypothesis HPhi : normal_cdf Phi.
  Hypothesis Hppf : quantile_of Phi ppf.
  Hypothesis Hf : forall k, (k <= fast_len k)%nat.
  Notation mc := (cluster_mc Phi ppf mixture_pld fast_len fuel).
  Notation mech := (noise_event Phi ADD_OR_REMOVE_ONE).

  Lemma default_disc_pos : 0 < default_disc.
  Proof. unfold default_disc. apply Rdiv_lt_0_compat; [lra | apply pow_lt; lra]. Qed.

  Lemma queries_le sd sens p n : 0 < sd -> 0 < sens -> 0 < p ->
    Forall2 (fun (C D : exper -> Prop) => forall F, C F -> D F) (clustering_queries Phi sd sens (1 / p) (Z.to_nat n))
      (run_classes mech [(Gaussian (PyFloat (sd / sens)), 1%Z); (Laplace (PyFloat (1 / p)), n)]).
  Proof.
    intros Hs He Hp. unfold run_classes, clustering_queries. cbn [flat_map]. rewrite app_nil_r. change (Z.to_nat 1) with 1%nat. cbn [repeat app].
    assert (Q : 0 < 1 / p) by (apply Rdiv_lt_0_compat; lra).
    constructor; [|apply repeat_le]; intros F HF; cbn [noise_event nval].
    - exists (sd / sens). split; [reflexivity|]. right. split; [lra|]. right. split; [apply Rdiv_lt_0_compat; assumption|].
      exists sens. split; [assumption|].
      replace (fun x => normal_law Phi (sd / sens) (x / sens)) with (normal_law Phi sd); [exact HF|].
      apply functional_extensionality. intros x. unfold normal_law. f_equal. field. lra.
    - exists (1 / p). split; [reflexivity|]. right. split; [lra|]. right. split; [exact Q|]. exists 1. split; [lra|].
      replace (fun x => laplace_law (1 / p) (x / 1)) with (laplace_law (1 / p)); [exact HF|].
      apply functional_extensionality. intros x. f_equal. field.
  Qed.

  Lemma noise_event_sound A0 sd sens p n A : pld_new default_disc = Ok A0 -> (1 <= n)%Z ->
    acc_compose mc A0 (EventObj (noise_events sd sens p n)) 1 = (A, Ok tt) ->
    St (run_classes mech [(Gaussian (PyFloat (sd / sens)), 1%Z); (Laplace (PyFloat (1 / p)), n)]) (acc_state A).
  Proof.
    intros N Hn C. pose proof default_disc_pos as D. pose proof default_tail_pos as T.
    assert (R : runs mc A0 [(noise_events sd sens p n, 1%Z)] A) by (eapply runs_cons; [exact C | apply runs_nil]).
    unfold pld_new in N. destruct (identity default_disc) as [I|] eqn:Ei; [|discriminate]. injection N as <-.
    assert (S0 : St [] (mkPldState false I)).
    { right. cbn [cur_pld]. split; [apply sound_wide, (identity_sound default_disc); assumption|].
      intros F HF. inversion HF as [K|Cs ? ? ? ? ? K]; [apply (identity_bounds default_disc); assumption | destruct Cs; discriminate]. }
    assert (RS : Forall (run_sound (gaussian_pld_of Phi ppf fuel default_disc) (laplace_pld_of fuel default_disc) mixture_pld ADD_OR_REMOVE_ONE default_tail mech)
               (history_runs [(noise_events sd sens p n, 1%Z)])).
    { rewrite noise_runs. apply Forall_cons; [|apply Forall_cons; [|apply Forall_nil]]; apply noise_sound; try assumption; [reflexivity | exact Logic.I]. }
    pose proof (runs_bounds _ _ _ _ _ _ _ mech Hf T D _ _ _ [] R (noise_pos _ _ _ _ Hn) RS S0) as X. rewrite noise_runs in X. exact X.
  Qed.

  (** What [validate_accounting] checks. *)
  Lemma validate_inv c eps delta depth : validate_accounting Phi ppf mixture_pld fast_len fuel c (Fin eps) delta depth = Ok tt -> delta < 1 ->
    exists e A0 A v, make_clustering_event (gaussian_std_dev c) (laplace_param c) (sensitivity c) depth = Ok e /\
      pld_new default_disc = Ok A0 /\ acc_compose mc A0 (EventObj e) 1 = (A, Ok tt) /\
      pldacc_epsilon (acc_state A) delta = Ok v /\ xltb (Fin eps) v = false /\ pldacc_delta (acc_state A) (Fin eps) <= delta.
  Proof.
    unfold validate_accounting, nonprivate. intros H L. cbn [xeqb orb] in H. rewrite (Rleb_false 1 delta) in H by lra.
    destruct (make_clustering_event _ _ _ _) as [e|]; [|discriminate]. destruct (pld_new default_disc) as [A0|]; [|discriminate]. cbn [bind] in H.
    destruct (acc_compose _ A0 _ _) as [A [[]|]] eqn:C; [|discriminate]. cbn [bind] in H.
    destruct (pldacc_epsilon (acc_state A) delta) as [v|] eqn:V; [|discriminate]. cbn [bind] in H.
    destruct (xltb (Fin eps) v) eqn:X; [discriminate|]. cbn [orb] in H. destruct (Rltb_spec delta (pldacc_delta (acc_state A) (Fin eps))); [discriminate|].
    exists e, A0, A, v. repeat split; try assumption. lra.
  Qed.

  Lemma accounted_finite sd param sens depth e A0 A v delta eps : make_clustering_event sd param sens depth = Ok e ->
    acc_compose mc A0 (EventObj e) 1 = (A, Ok tt) -> pldacc_epsilon (acc_state A) delta = Ok v -> xltb (Fin eps) v = false ->
    exists p, sd <> 0 /\ sens <> 0 /\ param = Fin p /\ p <> 0 /\ (1 <= depth + 1)%Z /\ e = noise_events sd sens p (depth + 1).
  Proof.
    intros M C V X. destruct (make_event_inv _ _ _ _ _ M) as [H|[_ I]]; [exact H|]. exfalso.
    destruct (pld_never_forgotten _ _ _ _ _ _ _ A0 A e 1 [] C) as [K _]; [exists NonPrivate; split; [exact I | left; reflexivity]|].
    cbn [acc_run fold_left] in K. specialize (K delta). unfold acc_run in K. cbn [fold_left] in K. rewrite K in V. injection V as <-. discriminate X.
  Qed.

  Theorem validated c sd sens param eps delta depth : new_calc sd sens param = Ok c -> delta < 1 ->
    validate_accounting Phi ppf mixture_pld fast_len fuel c (Fin eps) delta depth = Ok tt ->
    0 < sd /\ exists a, param = Fin a /\ 0 < a /\ (0 <= depth)%Z /\
      forall E, interaction (clustering_queries Phi sd sens (1 / a) (Z.to_nat (depth + 1))) E -> dp_both E eps delta.
  Proof.
    intros NC L H. destruct (new_calc_inv _ _ _ _ NC) as (-> & Hsd & Hs & Hp). cbn [gaussian_std_dev laplace_param sensitivity] in *.
    destruct (validate_inv _ _ _ _ H L) as (e & A0 & A & v & M & N & C & V & X & D). cbn [gaussian_std_dev laplace_param sensitivity] in *.
    destruct (accounted_finite _ _ _ _ _ _ _ _ _ _ M C V X) as (a & S0 & S1 & -> & P0 & Hd & ->).
    cbn [xleb] in Hp. destruct (Rleb_spec a 0); [discriminate|].
    split; [lra|]. exists a. split; [reflexivity|]; split; [lra|]; split; [lia|]. intros E HE.
    assert (HE' : interaction (run_classes mech [(Gaussian (PyFloat (sd / sens)), 1%Z); (Laplace (PyFloat (1 / a)), (depth + 1)%Z)]) E)
      by (eapply interaction_le; [exact HE | apply queries_le; lra]).
    destruct (noise_event_sound _ _ _ _ _ _ N Hd C) as [F|[W B]].
    - exfalso. unfold pldacc_delta in D. rewrite F in D. lra.
    - destruct (non_dp (acc_state A)) eqn:Fl; [unfold pldacc_delta in D; rewrite Fl in D; lra|].
      unfold pldacc_delta in D. rewrite Fl in D. specialize (B E HE'). destruct (wide_delta_sound _ _ eps W B) as [Y Z].
      destruct B as [VE _]. split; eapply dp_mono; try apply Y; try apply Z; try lra; auto. apply valid_swap; assumption.
  Qed.

  Theorem calibrated_validates eps delta radius depth m c : delta < 1 ->
    new_calculator Phi ppf mixture_pld fast_len fuel brentq (Fin eps) delta radius depth m = Ok c ->
    validate_accounting Phi ppf mixture_pld fast_len fuel c (Fin eps) delta depth = Ok tt.
  Proof.
    intros L H. unfold new_calculator, validate_accounting in *. unfold nonprivate in *. cbn [xeqb orb] in *. rewrite (Rleb_false 1 delta) in * by lra.
    destruct (get_alpha_interval _ _ _ _ _ _ _) as [iv|]; [|discriminate]. cbn [bind] in H.
    destruct (pld_new default_disc) as [A0|] eqn:N; [|discriminate]. cbn [bind] in *.
    destruct (calibrate _ _ _ _ _ _ _ _ _ _ _) as [p|] eqn:C; [|discriminate]. cbn [bind] in H.
    destruct (calibrate_sound _ _ _ _ _ (pld_fresh_not_nan mc A0) _ _ _ _ _ _ _ C) as [(e & v & Me & Fv & Lv) _].
    unfold make_clustering_event_from_param in Me. destruct (nval p) as [a| | |]; try discriminate.
    destruct (get_laplace_param m a) as [param|]; [|discriminate]. cbn [bind] in *.
    destruct (new_calc_inv _ _ _ _ H) as (-> & Hsd & Hs & Hp). cbn [gaussian_std_dev laplace_param sensitivity].
    rewrite Me. cbn [bind]. apply fresh_reports in Fv. destruct Fv as (A & HA & Hv). rewrite HA. cbn [bind]. rewrite Hv. cbn [bind].
    pose proof (pldacc_eps_value _ _ _ Hv) as FI. destruct v as [x| | |]; try contradiction; [|discriminate Lv].
    cbn [xleb] in Lv. destruct (Rleb_spec x eps) as [Lx|]; [|discriminate].
    cbn [xltb]. rewrite (Rltb_false eps x Lx). cbn [orb].
    destruct (accounted_finite _ _ _ _ _ _ _ _ _ eps Me HA Hv) as (b & S0 & S1 & -> & P0 & Hd & ->); [cbn [xltb]; apply Rltb_false, Lx|].
    assert (K : pldacc_delta (acc_state A) (Fin eps) <= delta); [|rewrite (Rltb_false _ _ K); reflexivity].
    unfold pldacc_epsilon in Hv. unfold pldacc_delta. destruct (non_dp (acc_state A)) eqn:Fl; [discriminate|].
    destruct (noise_event_sound _ _ _ _ _ _ N Hd HA) as [F|[W _]]; [congruence|].
    pose proof W as ((W1 & _) & (W2 & _) & HS).
    destruct (pld_epsilon_spec _ delta W1 W2 HS) as [[E1 _]|(_ & _ & e' & E1 & _ & D1 & _)]; [congruence|].
    rewrite E1 in Hv. injection Hv as ->. eapply Rle_trans; [|exact D1]. apply pld_monotone; [|exact Lx]. split; [|split]; assumption.
  Qed.

  Theorem calculator_private eps delta radius depth m c : delta < 1 ->
    new_calculator Phi ppf mixture_pld fast_len fuel brentq (Fin eps) delta radius depth m = Ok c ->
    0 < gaussian_std_dev c /\ sensitivity c = radius /\ exists a, laplace_param c = Fin a /\ 0 < a /\ (0 <= depth)%Z /\
      forall E, interaction (clustering_queries Phi (gaussian_std_dev c) radius (1 / a) (Z.to_nat (depth + 1))) E -> dp_both E eps delta.
  Proof.
    intros L H. pose proof (calibrated_validates _ _ _ _ _ _ L H) as V.
    assert (NC : exists sd param, new_calc sd radius param = Ok c).
    { unfold new_calculator, nonprivate in H. cbn [xeqb orb] in H. rewrite (Rleb_false 1 delta) in H by lra.
      destruct (get_alpha_interval _ _ _ _ _ _ _) as [iv|]; [|discriminate]. cbn [bind] in H. destruct (pld_new default_disc) as [A0|]; [|discriminate]. cbn [bind] in H.
      destruct (calibrate _ _ _ _ _ _ _ _ _ _ _) as [p|]; [|discriminate]. cbn [bind] in H. destruct (nval p) as [a| | |]; try discriminate.
      destruct (get_laplace_param m a) as [param|]; [|discriminate]. cbn [bind] in H. eauto. }
    destruct NC as (sd & param & NC). destruct (validated _ _ _ _ _ _ _ NC L V) as [Hsd (a & -> & Ha & Hd & HE)].
    destruct (new_calc_inv _ _ _ _ NC) as (-> & _). cbn [gaussian_std_dev laplace_param sensitivity]. split; [exact Hsd|]. split; [reflexivity|].
    exists a. auto.
  Qed.
  Theorem calculator_ratio eps delta radius depth m c : delta < 1 ->
    new_calculator Phi ppf mixture_pld fast_len fuel brentq (Fin eps) delta radius depth m = Ok c ->
    exists alpha, gaussian_std_dev c = gaussian_multiplier m * alpha * radius /\ laplace_param c = Fin (1 / (laplace_multiplier m * alpha)) /\ 0 < laplace_multiplier m * alpha.
  Proof.
    intros L H. destruct (calculator_private _ _ _ _ _ _ L H) as (_ & _ & a' & Ea & Pa & _).
    unfold new_calculator, nonprivate in H. cbn [xeqb orb] in H. rewrite (Rleb_false 1 delta) in H by lra.
    destruct (get_alpha_interval _ _ _ _ _ _ _) as [iv|]; [|discriminate]. cbn [bind] in H. destruct (pld_new default_disc) as [A0|]; [|discriminate]. cbn [bind] in H.
    destruct (calibrate _ _ _ _ _ _ _ _ _ _ _) as [p|]; [|discriminate]. cbn [bind] in H. destruct (nval p) as [a| | |]; try discriminate.
    destruct (get_laplace_param m a) as [param|] eqn:EP; [|discriminate]. cbn [bind] in H. unfold get_laplace_param in EP. destruct (Reqb_spec (laplace_multiplier m * a) 0) as [|N]; [discriminate|]. injection EP as <-.
    destruct (new_calc_inv _ _ _ _ H) as (-> & _). cbn [gaussian_std_dev laplace_param] in *. exists a. split; [reflexivity|]. split; [reflexivity|].
    injection Ea as Ea. rewrite <- Ea in Pa. destruct (Rlt_le_dec 0 (laplace_multiplier m * a)) as [|Ln]; [assumption|]. exfalso.
    assert (/ (laplace_multiplier m * a) < 0) by (apply Rinv_lt_0_compat; lra). lra.
  Qed.
End Calc.

Lemma event_runs sd param sens depth e : make_clustering_event sd param sens depth = Ok e -> sd <> 0 -> param <> PInf ->
  exists p, param = Fin p /\ (0 <= depth)%Z /\ pos_history [(e, 1%Z)] /\
    history_runs [(e, 1%Z)] = [(Gaussian (PyFloat (sd / sens)), 1%Z); (Laplace (PyFloat (1 / p)), (depth + 1)%Z)].
Proof.
  intros H S P. destruct (make_event_inv _ _ _ _ _ H) as [(p & _ & _ & -> & _ & L & ->)|[[K|K] _]]; try contradiction.
  exists p. split; [reflexivity|]. split; [lia|]. split; [apply noise_pos, L | apply noise_runs].
Qed.
Lemma event_nonprivate sd param sens depth e : make_clustering_event sd param sens depth = Ok e -> sd = 0 \/ param = PInf -> In NonPrivate (atoms e).
Proof. intros H K. destruct (make_event_inv _ _ _ _ _ H) as [(p & S & _ & -> & _)|[_ I]]; [destruct K; [contradiction | discriminate] | exact I]. Qed.

Lemma tree_valid count_of k pts dim pc depth s : (1 <= k)%Z -> 0 < sensitivity pc ->
  exists tp count s', default_tree_param count_of k pts dim pc depth s = Ok (tp, count, s') /\
    (1 <= min_node tp)%Z /\ (min_node tp <= min_branching tp)%Z /\ max_depth tp = depth.
Proof.
  intros K S. unfold default_tree_param, get_private_count. rewrite Reqb_false by lra. destruct (Z.eqb_spec (2 * k) 0); [lia|]. cbn zeta.
  set (m := Z.max 1 _). assert (1 <= m)%Z by (unfold m; lia). clearbody m. unfold new_tree_param. destruct (Z.ltb_spec m 1); [lia|]. destruct (Z.ltb_spec (3 * m) m); [lia|]. cbn [bind].
  do 3 eexists. split; [reflexivity|]. cbn [min_node min_branching max_depth]. repeat split; lia.
Qed.
