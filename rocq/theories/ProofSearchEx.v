(** Calibration with the two accountants; instances and counterexamples of the searches. *)
From Verif Require Import Base XReal Exn PyDict TypesEvent TypesRelation SpecEvent ModelBuilder ProofBuilder ModelCommon ModelPmf ModelPld
  SpecDP SpecPmf SpecPld ProofDP ModelMake SpecMake ModelRdp SpecRenyi SpecRdp ProofRdpMath ProofConv ProofMono ProofRdpEx
  ModelAccountant SpecAccountant SpecAccPld ProofAccGen ProofAccRdp ProofAccMono ProofAccSound ProofAccEx ModelSearch SpecSearch ProofSearch ProofCal.
Local Arguments Rltb : simpl never.
Local Arguments Rleb : simpl never.
Local Arguments Reqb : simpl never.

Definition fin_or_inf (v : xr) : Prop := match v with Fin _ | PInf => True | _ => False end.
Lemma rdp_eps_value orders A delta v : rdp_epsilon orders A delta = Ok v -> fin_or_inf v.
Proof.
  unfold rdp_epsilon, compute_epsilon. destruct (Rltb delta 0); [discriminate|].
  destruct (Reqb delta 0); [destruct (forallb _ _); intros [= <-]; exact Logic.I|].
  destruct (negb _); [discriminate|]. destruct (map_res _ _); [|discriminate]. cbn [bind].
  destruct (argmin a) as [[e o]|]; [|discriminate]. cbn [bind fst]. intros [= <-]. unfold pymax.
  destruct e; cbn; try exact Logic.I. destruct (Rltb 0 r); exact Logic.I.
Qed.
Lemma eps_loop_value delta : forall rl mu ml v, eps_loop delta rl mu ml = Ok v -> fin_or_inf v.
Proof.
  assert (F : forall mu ml v, eps_finish mu ml delta = Ok v -> fin_or_inf v).
  { unfold eps_finish. intros mu ml v. destruct (Rleb _ _); [intros [= <-]; exact Logic.I|]. destruct (Reqb _ _); [discriminate|]. intros [= <-]. exact Logic.I. }
  induction rl as [|[loss prob] rl IH]; intros mu ml v; cbn [eps_loop]; [apply F|].
  destruct (_ && _ && _)%bool; [apply F|]. destruct (_ && _)%bool; [intros [= <-]; exact Logic.I | apply IH].
Qed.
Lemma pmf_eps_value p delta v : pmf_epsilon p delta = Ok v -> fin_or_inf v.
Proof. unfold pmf_epsilon, epsilon_for_delta. destruct (Rltb _ _); [intros [= <-]; exact Logic.I | apply eps_loop_value]. Qed.
Lemma pldacc_eps_value s delta v : pldacc_epsilon s delta = Ok v -> fin_or_inf v.
Proof.
  unfold pldacc_epsilon, pld_epsilon. destruct (non_dp s); [intros [= <-]; exact Logic.I|].
  destruct (pmf_epsilon (pmf_remove _) delta) as [er|] eqn:Er; [|discriminate]. cbn [bind]. apply pmf_eps_value in Er.
  destruct (symmetric _); [intros [= <-]; exact Er|].
  destruct (pmf_epsilon (pmf_add _) delta) as [ea|] eqn:Ea; [|discriminate]. cbn [bind]. apply pmf_eps_value in Ea.
  intros [= <-]. unfold xmax. destruct (xltb _ _); assumption.
Qed.

Lemma dp_weaken E eps eps' delta : valid E -> eps <= eps' -> dp_both E eps delta -> dp_both E eps' delta.
Proof.
  intros V L [H1 H2]. assert (X : exp eps <= exp eps') by (destruct L as [L| ->]; [left; apply exp_increasing, L | right; reflexivity]).
  assert (P : forall F : exper, valid F -> forall S, 0 <= ProbQ F S).
  { intros F [N _] S. unfold ProbQ. apply rsum_nonneg. intros a I. apply filter_In in I. apply (N a), I. }
  split; intros S.
  - eapply Rle_trans; [apply H1|]. apply Rplus_le_compat_r, Rmult_le_compat_r; [apply P, V | exact X].
  - eapply Rle_trans; [apply H2|]. apply Rplus_le_compat_r, Rmult_le_compat_r; [|exact X].
    apply (P (swap E)). destruct V as [N [S1 S2]]. split; [intros a I; split; apply (N a), I | split; assumption].
Qed.

Lemma rdp_get orders A delta : rdp_get_epsilon orders (acc_state A) delta = rdp_epsilon orders A delta.
Proof. reflexivity. Qed.

Lemma rdp_fresh_not_nan frac fuel rel orders fresh e delta :
  fresh_epsilon (rdp_mc frac fuel rel orders) (rdp_get_epsilon orders) fresh e delta <> Ok NaN.
Proof.
  unfold fresh_epsilon. destruct (acc_compose _ _ _ _) as [A' [[]|]]; cbn [bind]; [|discriminate]. intros H. exact (rdp_eps_value _ _ _ _ H).
Qed.
Lemma pld_fresh_not_nan mc fresh e delta : fresh_epsilon mc pldacc_epsilon fresh e delta <> Ok NaN.
Proof.
  unfold fresh_epsilon. destruct (acc_compose _ _ _ _) as [A' [[]|]]; cbn [bind]; [|discriminate]. intros H. exact (pldacc_eps_value _ _ _ H).
Qed.

Lemma calibrate_rdp frac fuel rel orders make_event brentq fuel' eps delta bi discrete tol p :
  calibrate (rdp_mc frac fuel rel orders) (rdp_get_epsilon orders) (rdp_new orders) make_event brentq fuel' eps delta bi discrete tol = Ok p ->
  orders <> [] -> real_orders orders -> (forall a, In a orders -> order_ok a) ->
  exists e, make_event p = Ok e /\ (pos_counts e ->
  forall E, interaction (map (fun a => rdp_curve orders (unit_charge frac fuel rel orders a)) (atoms e)) E -> dp_both E eps delta).
Proof.
  intros H Ne RO OO.
  destruct (calibrate_sound _ _ _ _ _ (rdp_fresh_not_nan frac fuel rel orders (rdp_new orders)) _ _ _ _ _ _ _ H) as [(ev & v & EV & Fv & L) _].
  exists ev. split; [exact EV|]. intros PC E HE.
  apply fresh_reports in Fv. destruct Fv as (A & C & G). rewrite rdp_get in G. pose proof (rdp_eps_value _ _ _ _ G) as FI.
  destruct v as [e| | |]; try contradiction; [|discriminate L].
  assert (R : runs (rdp_mc frac fuel rel orders) (rdp_new orders) [(ev, 1%Z)] A) by (eapply runs_cons; [exact C | apply runs_nil]).
  destruct (adaptive frac fuel rel orders [(ev, 1%Z)] A E OO R) as (Cv & D & _).
  - apply Forall_cons; [|apply Forall_nil]. cbn. split; [lia | exact PC].
  - rewrite history_atoms_one. rewrite copies_1. exact HE.
  - eapply dp_weaken; [apply Cv | | exact (D Ne RO delta e G)]. cbn in L. destruct (Rleb_spec e eps); [assumption | discriminate].
Qed.

Lemma calibrate_pld gaussian_pld laplace_pld mixture_pld fast_len rel disc tail mech A0 make_event brentq fuel eps delta bi discrete tol p :
  let mc := pld_mc gaussian_pld laplace_pld mixture_pld fast_len rel disc tail in
  (forall k, (k <= fast_len k)%nat) -> 0 <= tail -> 0 < disc -> pld_new disc = Ok A0 ->
  calibrate mc pldacc_epsilon A0 make_event brentq fuel eps delta bi discrete tol = Ok p ->
  exists e, make_event p = Ok e /\ (pos_counts e ->
  Forall (run_sound gaussian_pld laplace_pld mixture_pld rel tail mech) (history_runs [(e, 1%Z)]) ->
  (forall a F, mech a F -> valid F) ->
  forall E, valid E -> interaction (run_classes mech (history_runs [(e, 1%Z)])) E -> dp_both E eps delta).
Proof.
  intros mc FL T D N H.
  destruct (calibrate_sound _ _ _ _ _ (pld_fresh_not_nan mc A0) _ _ _ _ _ _ _ H) as [(ev & v & EV & Fv & L) _].
  exists ev. split; [exact EV|]. intros PC RS V E VE HE.
  apply fresh_reports in Fv. destruct Fv as (A & C & G). pose proof (pldacc_eps_value _ _ _ G) as FI.
  destruct v as [e| | |]; try contradiction; [|discriminate L].
  assert (R : runs mc A0 [(ev, 1%Z)] A) by (eapply runs_cons; [exact C | apply runs_nil]).
  destruct (pld_accountant_sound gaussian_pld laplace_pld mixture_pld fast_len rel disc tail mech FL T D A0 _ A E N R) as [_ S]; auto.
  - apply Forall_cons; [|apply Forall_nil]. cbn. split; [lia | exact PC].
  - eapply dp_weaken; [exact VE | | exact (S delta e G)]. cbn in L. destruct (Rleb_spec e eps); [assumption | discriminate].
Qed.

(** ** Instances *)
Definition seven_minus (x : xr) : res xr := Ok (xsub (Fin 7) x).
Definition plus_one (x : xr) : res xr := Ok (xadd x (Fin 1)).
Lemma inverse_example : search_ok 0 PInf (Some 1) (1/100) false /\ non_increasing seven_minus /\
  (exists fuel x, inverse_monotone_function seven_minus (Fin 3) false fuel (params_of 0 PInf (Some 1) (1/100) false) = Ok (Some x)) /\
  search_ok 0 (Fin 9) (Some 1) (1/100) true /\ non_decreasing plus_one /\
  (exists fuel x, inverse_monotone_function plus_one (Fin 3) true fuel (params_of 0 (Fin 9) (Some 1) (1/100) true) = Ok (Some x)).
Proof.
  assert (I : forall z, is_int (IZR z)) by (intros z; exists z; reflexivity).
  assert (O1 : search_ok 0 PInf (Some 1) (1/100) false) by (unfold search_ok; repeat split; try lra; discriminate).
  assert (O2 : search_ok 0 (Fin 9) (Some 1) (1/100) true).
  { unfold search_ok. repeat split; try lra; [apply I | intros u [= <-]; apply I | intros u [= <-]; apply I]. }
  split; [exact O1|]. split; [|split; [|split; [exact O2|split]]].
  - intros x y v w L [= <-] [= <-]. cbn. apply Rleb_true. lra.
  - destruct (inverse_terminates seven_minus (Fin 3) false 0 PInf (Some 1) (1/100) false O1) as [N HN]; [lra | | |].
    + intros x _. eexists. reflexivity.
    + intros _. exists 5. intros x Hx. eexists. split; [reflexivity|]. unfold check, seven_minus. cbn. apply Rltb_false. lra.
    + exists (S N). destruct (HN (S N) ltac:(lia)) as [[x|] Hr]; [eauto|].
      destruct (inverse_decreasing _ _ _ _ _ _ _ _ _ O1 Hr) as [K _]. exfalso. apply (K eq_refl) with (x := 5).
      * intros x y v w L [= <-] [= <-]. cbn. apply Rleb_true. lra.
      * split; [lra | reflexivity].
      * eexists. split; [reflexivity|]. unfold seven_minus. cbn. apply Rltb_false. lra.
  - intros x y v w L [= <-] [= <-]. cbn. apply Rleb_true. lra.
  - destruct (inverse_terminates plus_one (Fin 3) true 0 (Fin 9) (Some 1) (1/100) true O2) as [N HN]; [lra | | discriminate |].
    + intros x _. eexists. reflexivity.
    + exists (S N). destruct (HN (S N) ltac:(lia)) as [[x|] Hr]; [eauto|].
      destruct (inverse_increasing plus_one (Fin 3) (S N) 0 (Fin 9) (Some 1) (1/100) true None O2 ltac:(discriminate) Hr) as [K _]. exfalso. apply (K eq_refl) with (x := 0).
      * intros x y v w L [= <-] [= <-]. cbn. apply Rleb_true. lra.
      * split; [lra | cbn; apply Rleb_true; lra].
      * eexists. split; [reflexivity|]. unfold plus_one. cbn. apply Rltb_false. lra.
Qed.

(** A discrete search never looks at the lower end of the range. *)
Definition zero_fun (x : xr) : res xr := Ok (Fin 0).
Lemma discrete_misses_lower fuel : search_ok 0 (Fin 1) None 1 true /\ non_increasing zero_fun /\ meets zero_fun (Fin 1) 0 /\
  inverse_monotone_function zero_fun (Fin 1) false (S fuel) (params_of 0 (Fin 1) None 1 true) = Ok (Some (Fin 1)).
Proof.
  assert (I : forall z, is_int (IZR z)) by (intros z; exists z; reflexivity).
  split; [unfold search_ok; repeat split; try lra; [apply I | intros u [= <-]; apply I | discriminate]|].
  split; [intros x y v w _ [= <-] [= <-]; cbn; apply Rleb_true; lra|].
  split; [eexists; split; [reflexivity | cbn; apply Rltb_false; lra]|].
  unfold inverse_monotone_function, params_of. cbn. rewrite !Rltb_false by lra. cbn. reflexivity.
Qed.
(** An initial guess below the range can be returned. *)
Lemma guess_below fuel : non_increasing zero_fun /\
  inverse_monotone_function zero_fun (Fin 1) false (S fuel) (params_of 5 (Fin 10) (Some 1) (1/100) false) = Ok (Some (Fin 1)) /\
  ~ in_range 5 (Fin 10) 1.
Proof.
  split; [intros x y v w _ [= <-] [= <-]; cbn; apply Rleb_true; lra|]. split.
  - unfold inverse_monotone_function, params_of. cbn. rewrite (Rltb_false 1 0), (Rltb_true 1 10) by lra. cbn [bind fst snd].
    unfold check, xmin. cbn. rewrite (Rltb_true 1 10) by lra. cbn. rewrite Rltb_false by lra. reflexivity.
  - intros [H _]. lra.
Qed.

Definition ten_minus (x : R) : res xr := Ok (Fin (10 - x)).
Lemma bracket_example : bracket_search ten_minus 0 1 = Ok (7, 15) /\ bracket_search (fun _ => Ok (Fin 1)) 0 1 = Err NoBracketIntervalFoundError.
Proof.
  split.
  - unfold bracket_search. rewrite Rleb_false by lra. unfold ten_minus. cbn [bind].
    do 3 (cbn [bracket_loop xmul xltb]; rewrite Rltb_true by lra; cbn [bind]).
    cbn [bracket_loop xmul xltb]. rewrite Rltb_false by lra. do 2 f_equal; lra.
  - destruct (bracket_search (fun _ => Ok (Fin 1)) 0 1) as [[a b]|x] eqn:E.
    + exfalso. destruct (bracket_ok (fun _ => Ok (Fin 1)) 0 1 ltac:(lra)) as [K _]. destruct (K a b E) as (j & v & w & _ & _ & _ & [= <-] & [= <-] & N & _).
      apply N. left. unfold positive. cbn. split; apply Rltb_true; lra.
    + destruct (bracket_ok (fun _ => Ok (Fin 1)) 0 1 ltac:(lra)) as [_ K]. destruct (K x E) as [(-> & _)|(i & _ & [=])]. reflexivity.
Qed.
Lemma bisect_example : never_nan ten_minus /\ exists x, bisect ten_minus 10 7 15 1 = Ok x.
Proof.
  assert (N : never_nan ten_minus) by (intros x [=]). split; [exact N|].
  refine (bisect_total ten_minus N 1 7 15 _ _ 3 10 _ _ eq_refl eq_refl _ _ _ _); try lra; try lia.
  - unfold same_sign, positive, negative. cbn. intros [[_ H]|[H _]]; rewrite Rltb_iff in H; lra.
  - intros x _. eexists. reflexivity.
Qed.

(** Calibrating the noise multiplier of a Gaussian event with the RDP accountant. *)
Definition no_convergence (g : R -> res xr) (a b t : R) : brent_out := BrentRoot a false.
Lemma fresh_g1 frac fuel rel : exists e, 1 < e /\
  fresh_epsilon (rdp_mc frac fuel rel [Fin 2]) (rdp_get_epsilon [Fin 2]) (rdp_new [Fin 2]) (Gaussian (PyFloat 1)) (1/10) = Ok (Fin e).
Proof.
  destruct coin_eps as [_ (e & E & P)]. exists e. split; [exact P|].
  unfold fresh_epsilon. cbn [acc_compose]. rewrite (rdp_dry_pure frac fuel).
  replace (rdp_dry frac fuel rel [Fin 2] (Gaussian (PyFloat 1))) with Fine by reflexivity.
  change (builder_compose (acc_ledger (rdp_new [Fin 2])) (Gaussian (PyFloat 1)) 1) with (mkBuilder [(Gaussian (PyFloat 1), 1%Z)] None, @Ok unit tt).
  cbn iota. rewrite g1. cbn [acc_state bind]. unfold rdp_get_epsilon, rdp_epsilon. cbn [acc_state].
  replace (vec_add (acc_state (rdp_new [Fin 2])) [Fin 1]) with [Fin 1] by (cbn; do 2 f_equal; lra). rewrite E. reflexivity.
Qed.

Lemma fresh_gauss frac fuel rel s : 0 < s -> exists v,
  fresh_epsilon (rdp_mc frac fuel rel [Fin 2]) (rdp_get_epsilon [Fin 2]) (rdp_new [Fin 2]) (Gaussian (PyFloat s)) (1/10) = Ok v.
Proof.
  intros Hs. unfold fresh_epsilon. cbn [acc_compose]. rewrite (rdp_dry_pure frac fuel).
  replace (rdp_dry frac fuel rel [Fin 2] (Gaussian (PyFloat s))) with Fine by reflexivity.
  change (builder_compose (acc_ledger (rdp_new [Fin 2])) (Gaussian (PyFloat s)) 1) with (mkBuilder [(Gaussian (PyFloat s), 1%Z)] None, @Ok unit tt).
  cbn iota. cbn [rdp_mc nval]. unfold rdp_poisson_gaussian. rewrite (Rleb_true 0 1), (Rleb_true 1 1) by lra. cbn [andb negb xltb]. rewrite Rltb_false by lra.
  unfold charge. cbn [map vec_scale vec_add acc_state rdp_new combine fst snd bind length]. unfold rdp_get_epsilon, rdp_epsilon, compute_epsilon. cbn [acc_state].
  rewrite Rltb_false, Reqb_false by lra. cbn [length Nat.eqb negb combine map_res fst snd bind xltb]. rewrite Rltb_false by lra. cbn [bind argmin].
  eexists. reflexivity.
Qed.
Definition gaussian_event (s : num) : res (event num) := Ok (Gaussian s).
Lemma calibrate_example frac fuel rel : exists e v,
  let mc := rdp_mc frac fuel rel [Fin 2] in
  calibrate mc (rdp_get_epsilon [Fin 2]) (rdp_new [Fin 2]) gaussian_event no_convergence 1 e (1/10) (Explicit 1 2) false None = Ok (PyFloat 1) /\ 1 < e /\
  fresh_epsilon mc (rdp_get_epsilon [Fin 2]) (rdp_new [Fin 2]) (Gaussian (PyFloat 2)) (1/10) = Ok v /\
  exists E, interaction (map (fun a => rdp_curve [Fin 2] (unit_charge frac fuel rel [Fin 2] a)) (atoms (Gaussian (PyFloat 1)))) E.
Proof.
  destruct (fresh_g1 frac fuel rel) as (e & He & E1). destruct (fresh_gauss frac fuel rel 2 ltac:(lra)) as [v E2]. exists e, v. cbv zeta.
  split; [|split; [exact He | split; [exact E2|]]].
  - unfold calibrate. rewrite Rltb_false, Rleb_true, Rleb_true by lra. cbn [andb negb bind no_convergence].
    unfold bisect.
    rewrite (gap_total (rdp_mc frac fuel rel [Fin 2]) (rdp_get_epsilon [Fin 2]) (rdp_new [Fin 2]) gaussian_event false e (1/10) 1 (Fin e) eq_refl E1).
    rewrite (gap_total (rdp_mc frac fuel rel [Fin 2]) (rdp_get_epsilon [Fin 2]) (rdp_new [Fin 2]) gaussian_event false e (1/10) 2 v eq_refl E2).
    cbn [bind bisect_go xsub xadd xneg xeqb]. rewrite Reqb_true by lra. reflexivity.
  - destruct (all_coin (map (fun a => rdp_curve [Fin 2] (unit_charge frac fuel rel [Fin 2] a)) (atoms (@Gaussian num (PyFloat 1))))) as [E HE].
    + cbn [atoms map]. rewrite !unit_g1. apply Forall_cons; [apply coin_eps | apply Forall_nil].
    + exists E. exact HE.
Qed.

(** ... with a root finder that returns a root within the tolerance. *)
Definition gauss_eps (frac : R -> xr -> xr -> xr) (fuel : nat) (rel : relation) (s : R) : res xr :=
  fresh_epsilon (rdp_mc frac fuel rel [Fin 2]) (rdp_get_epsilon [Fin 2]) (rdp_new [Fin 2]) (Gaussian (PyFloat s)) (1/10).
Definition c2 : R := ln (1 - / 2) - ln (1/10 * 2) / (2 - 1).
Lemma c2_pos : 0 < c2.
Proof.
  unfold c2. assert (ln (1/10 * 2) < ln (1 - / 2)) by (apply ln_increasing; lra).
  replace (ln (1/10 * 2) / (2 - 1)) with (ln (1/10 * 2)) by field. lra.
Qed.
Lemma gauss_eps_value frac fuel rel s : gauss_eps frac fuel rel s =
  if Rltb s 0 then Err ValueError else if Reqb s 0 then Ok PInf else
  if Rltb 0 (1/10 * (1/10) + (exp (- / (s * s)) - 1)) then Ok (Fin 0) else Ok (Fin (/ (s * s) + c2)).
Proof.
  unfold gauss_eps, fresh_epsilon. cbn [acc_compose]. rewrite (rdp_dry_pure frac fuel).
  replace (rdp_dry frac fuel rel [Fin 2] (Gaussian (PyFloat s))) with Fine by reflexivity.
  change (builder_compose (acc_ledger (rdp_new [Fin 2])) (Gaussian (PyFloat s)) 1) with (mkBuilder [(Gaussian (PyFloat s), 1%Z)] None, @Ok unit tt).
  cbn iota. cbn [rdp_mc nval]. unfold rdp_poisson_gaussian. rewrite (Rleb_true 0 1), (Rleb_true 1 1) by lra. cbn [andb negb xltb].
  destruct (Rltb_spec s 0) as [N|N]; [reflexivity|].
  unfold charge. cbn [map vec_scale vec_add acc_state rdp_new combine fst snd bind length]. unfold poisson_order. cbn [isinf xeqb orb].
  rewrite (Reqb_false 1 0), (Reqb_true 1 1) by lra. destruct (Reqb_spec s 0) as [Z|Z].
  - unfold rdp_get_epsilon, rdp_epsilon, compute_epsilon. cbn [acc_state xmul inf_times xadd]. unfold inf_times. rewrite (Rltb_true 0 1) by lra. cbn [xadd].
    rewrite Rltb_false, Reqb_false by lra. cbn [length Nat.eqb negb combine map_res fst snd bind xltb]. rewrite Rltb_false by lra. cbn [bind argmin argmin_from fst].
    rewrite eps_of_order_PInf by lra. reflexivity.
  - unfold two_var. cbn [xmul xdiv]. rewrite Reqb_false by nra. cbn [xmul xadd].
    unfold rdp_get_epsilon, rdp_epsilon, compute_epsilon. cbn [acc_state].
    rewrite (Rltb_false (1/10) 0), (Reqb_false (1/10) 0) by lra. cbn [length Nat.eqb negb combine map_res fst snd bind xltb]. rewrite (Rltb_false 2 1) by lra. cbn [bind argmin argmin_from fst].
    rewrite eps_of_order_Fin by lra. replace (0 + 1 * (2 / (2 * (s * s)))) with (/ (s * s)) by (field; lra).
    assert (P : 0 < / (s * s)) by (apply Rinv_0_lt_compat; nra).
    rewrite (Rltb_false (/ (s * s)) 0), (Rltb_true (101/100) 2) by lra. destruct (Rltb 0 _).
    + unfold pymax. cbn [xltb]. rewrite Rltb_false by lra. reflexivity.
    + pose proof c2_pos as C. replace (/ (s * s) + ln (1 - / 2) - ln (1 / 10 * 2) / (2 - 1)) with (/ (s * s) + c2) by (unfold c2; ring).
      unfold pymax. cbn [xltb]. rewrite Rltb_true by lra. reflexivity.
Qed.
Lemma exp_small s : 0 < s -> s <= 1 -> Rltb 0 (1/10 * (1/10) + (exp (- / (s * s)) - 1)) = false.
Proof.
  intros H0 H1. apply Rltb_false. assert (1 <= / (s * s)). { rewrite <- Rinv_1 at 1. apply Rinv_le_contravar; nra. }
  rewrite exp_Ropp. pose proof exp1_gt2. assert (exp 1 <= exp (/ (s * s))) by (destruct H as [H|H]; [left; apply exp_increasing, H | rewrite <- H; right; reflexivity]).
  assert (/ exp (/ (s * s)) < / 2) by (apply Rinv_lt_contravar; lra). lra.
Qed.
Lemma gauss_best frac fuel rel : best_param (gauss_eps frac fuel rel) (1 + c2) 1.
Proof.
  pose proof c2_pos as C. split; [|left; split].
  - exists (Fin (1 + c2)). rewrite gauss_eps_value, Rltb_false, Reqb_false, exp_small by lra. split; [do 2 f_equal; rewrite Rmult_1_r, Rinv_1; reflexivity|].
    cbn. apply Rleb_true. lra.
  - intros x v L. rewrite gauss_eps_value. destruct (Rltb_spec x 0); [discriminate|]. destruct (Reqb_spec x 0); [intros [= <-]; reflexivity|].
    rewrite exp_small by lra. intros [= <-]. cbn. apply Rltb_true. apply Rplus_lt_compat_r. rewrite <- Rinv_1 at 1. apply Rinv_lt_contravar; nra.
  - intros x v L. rewrite gauss_eps_value, Rltb_false, Reqb_false by lra. assert (/ (x * x) < 1) by (rewrite <- Rinv_1; apply Rinv_lt_contravar; nra).
    destruct (Rltb 0 _); intros [= <-]; cbn; apply Rltb_true; lra.
Qed.
Lemma gauss_total frac fuel rel x : 0 <= x -> exists v, gauss_eps frac fuel rel x = Ok v.
Proof. intros H. rewrite gauss_eps_value, Rltb_false by lra. destruct (Reqb x 0); [|destruct (Rltb 0 _)]; eexists; reflexivity. Qed.
(** The answer of a root finder: slightly below the best parameter. *)
Definition below_one (g : R -> res xr) (a b t : R) : brent_out := BrentRoot (1 - t / 2) true.
Lemma optimal_example frac fuel rel :
  best_param (gauss_eps frac fuel rel) (1 + c2) 1 /\
  (forall g a b t r, 0 < t -> below_one g a b t = BrentRoot r true -> Rabs (r - 1) <= t) /\
  exists p, calibrate (rdp_mc frac fuel rel [Fin 2]) (rdp_get_epsilon [Fin 2]) (rdp_new [Fin 2]) gaussian_event below_one 10 (1 + c2) (1/10) (Explicit (1/2) 2) false (Some (1/4)) = Ok p.
Proof.
  pose proof c2_pos as C. split; [apply gauss_best|]. split.
  - intros g a b t r Ht [= <-]. apply Rabs_le. lra.
  - assert (K : exists v w, gauss_eps frac fuel rel (1/2) = Ok w /\ gauss_eps frac fuel rel 2 = Ok v /\ xleb v (Fin (1 + c2)) = true /\ xleb (Fin (1 + c2)) w = true).
    { destruct (gauss_best frac fuel rel) as [_ [[B1 B2]|[B1 B2]]].
      - destruct (gauss_total frac fuel rel (1/2) ltac:(lra)) as [w W]. destruct (gauss_total frac fuel rel 2 ltac:(lra)) as [v V]. exists v, w.
        specialize (B1 (1/2) w ltac:(lra) W). specialize (B2 2 v ltac:(lra) V). repeat split; auto.
        + destruct v; cbn in B2 |- *; try discriminate; try reflexivity. apply Rleb_true. rewrite Rltb_iff in B2. lra.
        + destruct w; cbn in B1 |- *; try discriminate; try reflexivity. apply Rleb_true. rewrite Rltb_iff in B1. lra.
      - exfalso. destruct (gauss_total frac fuel rel (1/2) ltac:(lra)) as [w W]. specialize (B2 (1/2) w ltac:(lra) W). rewrite gauss_eps_value in W.
        rewrite Rltb_false, Reqb_false, exp_small in W by lra. injection W as <-. cbn in B2. rewrite Rltb_iff in B2. assert (1 <= / (1/2 * (1/2))) by (rewrite <- Rinv_1 at 1; apply Rinv_le_contravar; lra). lra. }
    destruct K as (v & w & W & V & Lv & Lw).
    refine (calibrate_returns _ _ _ gaussian_event below_one (rdp_fresh_not_nan frac fuel rel [Fin 2] (rdp_new [Fin 2])) 10 (1 + c2) (1/10) (1/2) 2 false (Some (1/4)) 3 _ _ _ _ eq_refl _ _ _ _ _); cbn [tolerance]; try lra; try lia.
    + intros t [= <-]. right. lra.
    + intros x Hx. apply (gauss_total frac fuel rel x). lra.
    + exists v, w. split; [right; split; assumption|]. split; assumption.
    + intros g. eexists _, _. split; [reflexivity|]. lra.
Qed.
