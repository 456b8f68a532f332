(** The series of fractional orders on an example: records are sampled with probability 1 in 1 + e^16. *)
From Verif Require Import Base XReal Exn TypesEvent TypesRelation SpecEvent SpecDP SpecMake SpecMech SpecRenyi SpecRdp SpecNoiseAcc SpecAccPld SpecAccountant SpecSelect SpecRdpEvent SpecSeries.
From Verif Require Import ModelMake ModelBuilder ModelRdp ModelAccountant ModelFrac ProofDP ProofShapeGauss ProofNormal ProofRdpMath ProofGdpSeq ProofGdp ProofBinom ProofObserve ProofConvexDom ProofFrac
  ProofAccGen ProofAccRdp ProofAccAdd ProofRdpAtom ProofRdpEndEx.
Local Open Scope R_scope.
Local Arguments Rltb : simpl never.
Local Arguments Rleb : simpl never.
Local Arguments Reqb : simpl never.

Lemma loop_step Phi q s a steps i a0 a1 l0 l1 : frac_loop Phi q s a (S steps) i a0 a1 l0 l1 =
  let s0 := Some (frac_s0 Phi q s a i) in let s1 := Some (frac_s1 Phi q s a i) in
  let t := log_add (log_add a0 s0) (log_add a1 s1) in
  if (lltb s0 l0 && lltb s1 l1 && lltb (lmax s0 s1) (ladd t (Some (- (30)))))%bool then Some (i, t)
  else frac_loop Phi q s a steps (S i) (log_add a0 s0) (log_add a1 s1) s0 s1.
Proof. reflexivity. Qed.
Lemma not_lltb x y : lexp y <= lexp x -> lltb x y = false.
Proof. intros H. destruct (lltb x y) eqn:E; [|reflexivity]. apply lltb_exp in E. lra. Qed.
Lemma lexp_max x y : lexp (lmax x y) = Rmax (lexp x) (lexp y).
Proof.
  unfold lmax. destruct (lltb x y) eqn:E.
  - apply lltb_exp in E. rewrite Rmax_right by lra. reflexivity.
  - rewrite Rmax_left; [reflexivity|]. destruct (Rle_lt_dec (lexp y) (lexp x)) as [|K]; [assumption|]. apply lltb_exp in K. congruence.
Qed.
Lemma lexp_add x d : lexp (ladd x (Some d)) = lexp x * exp d.
Proof. destruct x as [x|]; cbn [ladd lexp]; [apply exp_plus | ring]. Qed.

Section Example.
  Context (Phi : R -> R) (HPhi : normal_cdf Phi).
  Lemma phi_ratio m : Phi (- m - 1) <= exp (- m - 1 / 2) * Phi (- m).
  Proof.
    destruct HPhi as ((B & MO & LO & _) & c & Hc & D). apply Rnot_lt_le. intros N.
    set (f := fun x => exp (- m - 1 / 2) * Phi x - Phi (x + - (1))). set (e := - f (- m)). assert (He : 0 < e) by (unfold e, f; replace (- m + - (1)) with (- m - 1) by ring; lra).
    destruct (LO (e / 2) ltac:(lra)) as [x0 X0]. set (x := Rmin x0 (- m - 1)). assert (X : x < - m) by (unfold x; pose proof (Rmin_r x0 (- m - 1)); lra).
    destruct (MVT_cor2 f (fun y => exp (- m - 1 / 2) * (c * ProofNormal.bell y) - c * ProofNormal.bell (y + - (1))) x (- m) X) as (y & E & Y).
    { intros y _. unfold f. apply (derivable_pt_lim_minus (fun x => exp (- m - 1 / 2) * Phi x) (fun x => Phi (x + - (1)))).
      - apply (derivable_pt_lim_scal Phi (exp (- m - 1 / 2)) y (c * ProofNormal.bell y)). apply D.
      - apply (shift_deriv Phi c D). }
    assert (P : 0 <= exp (- m - 1 / 2) * (c * ProofNormal.bell y) - c * ProofNormal.bell (y + - (1))).
    { rewrite bell_shift. replace (- - (1) * y - - (1) * - (1) / 2) with (y - 1 / 2) by field. assert (exp (y - 1 / 2) <= exp (- m - 1 / 2)) by (apply exp_le; lra).
      pose proof (exp_pos (- (y * y) / 2)) as Be. change (exp (- (y * y) / 2)) with (ProofNormal.bell y) in Be. assert (0 < c * ProofNormal.bell y) by (apply Rmult_lt_0_compat; assumption). nra. }
    assert (f x <= f (- m)) by nra.
    assert (- (e / 2) <= f x); [|unfold e in *; lra]. unfold f. pose proof (B x). pose proof (exp_pos (- m - 1 / 2)).
    pose proof (MO (x + - (1)) x0 ltac:(unfold x; pose proof (Rmin_l x0 (- m - 1)); lra)) as Y0. pose proof (B (x + - (1))). nra.
  Qed.

  Definition rare : R := 1 / (1 + exp 16).
  Notation W := (Rpower (1 - rare) (3 / 2)).
  Lemma rare_open : 0 < rare < 1.
  Proof. unfold rare. pose proof (exp_pos 16). split; [apply Rdiv_lt_0_compat; lra|]. apply Rmult_lt_reg_r with (1 + exp 16); [lra|]. field_simplify; lra. Qed.
  Lemma rare_odds : 1 / rare - 1 = exp 16.
  Proof. unfold rare. pose proof (exp_pos 16). field. lra. Qed.
  Lemma rare_z0 : frac_z0 rare 1 = 33 / 2.
  Proof. unfold frac_z0. rewrite rare_odds, ln_exp. field. Qed.
  Lemma rare_ln : ln rare = ln (1 - rare) - 16.
  Proof.
    pose proof (exp_pos 16). assert (E : 1 - rare = rare * exp 16) by (unfold rare; field; lra).
    pose proof rare_open. rewrite E, ln_mult, ln_exp by (lra || apply exp_pos). ring.
  Qed.
  Lemma rare0 i : term0 Phi rare 1 (3 / 2) i = W * exp (- (16) * INR i + (INR i * INR i - INR i) / 2) * Phi (33 / 2 - INR i).
  Proof.
    unfold term0. rewrite rare_z0. unfold Rpower. rewrite rare_ln, <- !exp_plus. f_equal; [f_equal; field | f_equal; field].
  Qed.
  Lemma rare1 i : term1 Phi rare 1 (3 / 2) i =
    W * exp (- (16) * (3 / 2 - INR i) + ((3 / 2 - INR i) * (3 / 2 - INR i) - (3 / 2 - INR i)) / 2) * Phi (3 / 2 - INR i - 33 / 2).
  Proof.
    unfold term1. rewrite rare_z0. unfold Rpower. rewrite rare_ln, <- !exp_plus. f_equal; [f_equal; field | f_equal; field].
  Qed.
  Lemma exp_lt x y : x < y -> exp x < exp y.
  Proof. apply exp_increasing. Qed.
  Theorem rare_stops : exists x, frac_loop Phi rare 1 (3 / 2) 1000 0 None None None None = Some (2%nat, Some x).
  Proof.
    assert (HF : INR 1 < 3 / 2 < INR 2) by (cbn; lra).
    assert (W0 : 0 < W) by apply Rpower_pos.
    pose proof (s0_term Phi HPhi rare 1 (3 / 2) ltac:(lra) 1 HF) as T0. pose proof (s1_term Phi HPhi rare 1 (3 / 2) ltac:(lra) 1 HF) as T1.
    assert (G0 : Rabs (gb (3 / 2) 0) = 1) by (cbn; apply Rabs_R1).
    assert (G1 : Rabs (gb (3 / 2) 1) = 3 / 2) by (replace (gb (3 / 2) 1) with (3 / 2) by (cbn; field); apply Rabs_pos_eq; lra).
    assert (G2 : Rabs (gb (3 / 2) 2) = 3 / 8) by (replace (gb (3 / 2) 2) with (3 / 8) by (cbn; field); apply Rabs_pos_eq; lra).
    pose proof (phi_open Phi HPhi) as O. assert (MO : forall x y, x <= y -> Phi x <= Phi y) by apply HPhi.
    assert (E0 : exp (frac_s0 Phi rare 1 (3 / 2) 0) = W * Phi (33 / 2)).
    { rewrite T0, rare0, G0. cbn [INR]. replace (- (16) * 0 + (0 * 0 - 0) / 2) with 0 by field. rewrite exp_0. replace (33 / 2 - 0) with (33 / 2) by ring. ring. }
    assert (E1 : exp (frac_s0 Phi rare 1 (3 / 2) 1) = W * (3 / 2 * exp (- (16)) * Phi (31 / 2))).
    { rewrite T0, rare0, G1. cbn [INR]. replace (- (16) * 1 + (1 * 1 - 1) / 2) with (- (16)) by field. replace (33 / 2 - 1) with (31 / 2) by field. ring. }
    assert (E2 : exp (frac_s0 Phi rare 1 (3 / 2) 2) = W * (3 / 8 * exp (- (31)) * Phi (29 / 2))).
    { rewrite T0, rare0, G2. cbn [INR]. replace (- (16) * (1 + 1) + ((1 + 1) * (1 + 1) - (1 + 1)) / 2) with (- (31)) by field. replace (33 / 2 - (1 + 1)) with (29 / 2) by field. ring. }
    assert (F0 : exp (frac_s1 Phi rare 1 (3 / 2) 0) = W * (exp (- (189 / 8)) * Phi (- (15)))).
    { rewrite T1, rare1, G0. cbn [INR]. replace (- (16) * (3 / 2 - 0) + ((3 / 2 - 0) * (3 / 2 - 0) - (3 / 2 - 0)) / 2) with (- (189 / 8)) by field. replace (3 / 2 - 0 - 33 / 2) with (- (15)) by field. ring. }
    assert (F1 : exp (frac_s1 Phi rare 1 (3 / 2) 1) = W * (3 / 2 * exp (- (65 / 8)) * Phi (- (16)))).
    { rewrite T1, rare1, G1. cbn [INR]. replace (- (16) * (3 / 2 - 1) + ((3 / 2 - 1) * (3 / 2 - 1) - (3 / 2 - 1)) / 2) with (- (65 / 8)) by field. replace (3 / 2 - 1 - 33 / 2) with (- (16)) by field. ring. }
    assert (F2 : exp (frac_s1 Phi rare 1 (3 / 2) 2) = W * (3 / 8 * exp (67 / 8) * Phi (- (17)))).
    { rewrite T1, rare1, G2. cbn [INR]. replace (- (16) * (3 / 2 - (1 + 1)) + ((3 / 2 - (1 + 1)) * (3 / 2 - (1 + 1)) - (3 / 2 - (1 + 1))) / 2) with (67 / 8) by field. replace (3 / 2 - (1 + 1) - 33 / 2) with (- (17)) by field. ring. }
    assert (X30 : 0 < exp (- (30))) by apply exp_pos.
    change 1000%nat with (S (S (S 997))).
    rewrite loop_step. cbv zeta. cbn [lltb andb]. rewrite loop_step. cbv zeta.
    match goal with |- context [if (?b && ?c && lltb ?m ?t)%bool then _ else _] => replace (lltb m t) with false end.
    2: { symmetry. apply not_lltb. rewrite lexp_max, lexp_add, !log_add_exp. cbn [lexp]. rewrite E0, E1, F0, F1. eapply Rle_trans; [|apply Rmax_l].
      apply Rle_trans with (W * (5 * exp (- (30)))).
      - assert (EL : forall x, x <= 0 -> exp x <= 1) by (intros x Hx; rewrite <- exp_0; apply exp_le; lra).
        pose proof (EL (- (16)) ltac:(lra)). pose proof (EL (- (189 / 8)) ltac:(lra)). pose proof (EL (- (65 / 8)) ltac:(lra)).
        pose proof (O (33 / 2)). pose proof (O (31 / 2)). pose proof (O (- (15))). pose proof (O (- (16))).
        assert (M : forall u v, 0 <= u -> u <= 1 -> 0 < v < 1 -> u * v <= 1) by (intros; nra).
        pose proof (M (exp (- (16))) (Phi (31 / 2)) ltac:(left; apply exp_pos) ltac:(assumption) ltac:(lra)).
        pose proof (M (exp (- (189 / 8))) (Phi (- (15))) ltac:(left; apply exp_pos) ltac:(assumption) ltac:(lra)).
        pose proof (M (exp (- (65 / 8))) (Phi (- (16))) ltac:(left; apply exp_pos) ltac:(assumption) ltac:(lra)).
        replace (0 + W * Phi (33 / 2) + W * (3 / 2 * exp (- (16)) * Phi (31 / 2)) + (0 + W * (exp (- (189 / 8)) * Phi (- (15))) + W * (3 / 2 * exp (- (65 / 8)) * Phi (- (16)))))
          with (W * (Phi (33 / 2) + 3 / 2 * (exp (- (16)) * Phi (31 / 2)) + exp (- (189 / 8)) * Phi (- (15)) + 3 / 2 * (exp (- (65 / 8)) * Phi (- (16))))) by ring.
        rewrite Rmult_assoc. apply Rmult_le_compat_l; [lra|]. apply Rmult_le_compat_r; lra.
      - apply Rmult_le_compat_l; [lra|]. assert (Phi 0 <= Phi (31 / 2)) by (apply MO; lra). pose proof (normal_mirror Phi HPhi 0) as MI. rewrite Ropp_0 in MI.
        replace (- (16)) with (14 + - (30)) by ring. rewrite exp_plus. pose proof (exp_ineq1_le 14). assert (15 * exp (- (30)) <= exp 14 * exp (- (30))) by (apply Rmult_le_compat_r; lra). nra. }
    rewrite !Bool.andb_false_r. rewrite loop_step. cbv zeta.
    match goal with |- context [if ?b then _ else _] => replace b with true end.
    - match goal with |- context [Some (2%nat, ?t)] => destruct t as [x|] eqn:Et; [exists x; reflexivity|] end.
      exfalso. apply (f_equal lexp) in Et. rewrite !log_add_exp in Et. cbn [lexp] in Et.
      pose proof (exp_pos (frac_s0 Phi rare 1 (3 / 2) 0)). pose proof (exp_pos (frac_s0 Phi rare 1 (3 / 2) 1)). pose proof (exp_pos (frac_s0 Phi rare 1 (3 / 2) 2)).
      pose proof (exp_pos (frac_s1 Phi rare 1 (3 / 2) 0)). pose proof (exp_pos (frac_s1 Phi rare 1 (3 / 2) 1)). pose proof (exp_pos (frac_s1 Phi rare 1 (3 / 2) 2)). lra.
    - symmetry. pose proof (phi_ratio 16) as R1. pose proof (phi_ratio 15) as R2. pose proof (phi_ratio 14) as R3.
      replace (- (16) - 1) with (- (17)) in R1 by ring. replace (- (15) - 1) with (- (16)) in R2 by ring. replace (- (14) - 1) with (- (15)) in R3 by ring.
      apply Bool.andb_true_iff. split; [apply Bool.andb_true_iff; split|]; apply lltb_exp.
      + cbn [lexp]. rewrite E1, E2. apply Rmult_lt_compat_l; [exact W0|]. assert (Phi (29 / 2) <= Phi (31 / 2)) by (apply MO; lra). pose proof (O (29 / 2)).
        assert (exp (- (31)) < exp (- (16))) by (apply exp_increasing; lra). pose proof (exp_pos (- (31))). nra.
      + cbn [lexp]. rewrite F1, F2. apply Rmult_lt_compat_l; [exact W0|]. pose proof (O (- (16))). pose proof (exp_pos (- (65 / 8))).
        assert (exp (67 / 8) * Phi (- (17)) <= exp (- (65 / 8)) * Phi (- (16))); [|nra].
        apply Rle_trans with (exp (67 / 8) * (exp (- (16) - 1 / 2) * Phi (- (16)))); [apply Rmult_le_compat_l; [left; apply exp_pos | exact R1]|].
        right. rewrite <- Rmult_assoc, <- exp_plus. f_equal. f_equal. field.
      + rewrite lexp_max, lexp_add, !log_add_exp. cbn [lexp]. set (T := W * (Phi (33 / 2) * exp (- (30)))). apply Rlt_le_trans with T.
        * unfold T. rewrite E2, F2. apply Rmax_lub_lt.
          -- apply Rmult_lt_compat_l; [exact W0|]. assert (Phi (29 / 2) <= Phi (33 / 2)) by (apply MO; lra). pose proof (O (29 / 2)).
             assert (exp (- (31)) < exp (- (30))) by (apply exp_increasing; lra). pose proof (exp_pos (- (31))). nra.
          -- apply Rmult_lt_compat_l; [exact W0|]. pose proof (O (- (14))). assert (Phi (- (14)) <= Phi (33 / 2)) by (apply MO; lra).
             assert (exp (67 / 8) * Phi (- (17)) <= exp (- (30)) * Phi (- (14))).
             { apply Rle_trans with (exp (67 / 8) * (exp (- (16) - 1 / 2) * (exp (- (15) - 1 / 2) * (exp (- (14) - 1 / 2) * Phi (- (14)))))).
               - apply Rmult_le_compat_l; [left; apply exp_pos|]. eapply Rle_trans; [exact R1|]. apply Rmult_le_compat_l; [left; apply exp_pos|]. eapply Rle_trans; [exact R2|].
                 apply Rmult_le_compat_l; [left; apply exp_pos | exact R3].
               - rewrite <- !Rmult_assoc, <- !exp_plus. apply Rmult_le_compat_r; [lra|]. apply exp_le. lra. }
             assert (0 <= exp (67 / 8) * Phi (- (17))) by (apply Rmult_le_pos; [left; apply exp_pos | left; apply O]). nra.
        * unfold T. rewrite <- Rmult_assoc, <- E0. apply Rmult_le_compat_r; [lra|].
          pose proof (exp_pos (frac_s0 Phi rare 1 (3 / 2) 1)). pose proof (exp_pos (frac_s0 Phi rare 1 (3 / 2) 2)).
          pose proof (exp_pos (frac_s1 Phi rare 1 (3 / 2) 0)). pose proof (exp_pos (frac_s1 Phi rare 1 (3 / 2) 1)). pose proof (exp_pos (frac_s1 Phi rare 1 (3 / 2) 2)). lra.
  Qed.
End Example.

Lemma half_integer : is_integer (3 / 2) = false.
Proof. unfold is_integer. rewrite (Rfloor_unique (3 / 2) 1) by lra. apply Reqb_false. lra. Qed.
Definition rare_history : list (event num * Z) :=
  [(PoissonSampled (PyFloat rare) (Gaussian (PyFloat 1)), 10%Z); (Gaussian (PyFloat 1), 1%Z)].
Lemma rare_atoms (P : event num -> Prop) : P (PoissonSampled (PyFloat rare) (Gaussian (PyFloat 1))) -> P (Gaussian (PyFloat 1)) -> Forall P (history_atoms rare_history).
Proof.
  intros H1 H2. unfold rare_history. cbn [history_atoms flat_map]. apply Forall_app. split; [apply in_copies; repeat constructor; assumption|].
  rewrite app_nil_r. apply in_copies. repeat constructor; assumption.
Qed.
Lemma rare_example Phi fuel : normal_cdf Phi -> let orders := [Fin (3 / 2); Fin 2] in exists A E,
  runs (rdp_mc (log_a_frac Phi) fuel ADD_OR_REMOVE_ONE orders) (rdp_new orders) rare_history A /\ pos_history rare_history /\ not_selected rare_history /\
  (forall a o, In a (flat_map parts (map fst rare_history)) -> In o orders -> defined_at o a) /\
  interaction (map (rdp_event Phi ADD_OR_REMOVE_ONE) (history_atoms rare_history)) E /\
  sampled_events rare_history = 10%nat.
Proof.
  intros HPhi. cbn zeta. set (orders := [Fin (3 / 2); Fin 2]). pose proof rare_open as RO.
  assert (PH : pos_history rare_history) by (repeat constructor; cbn; try lia).
  assert (C : Forall (composes (log_a_frac Phi) fuel ADD_OR_REMOVE_ONE orders) (history_atoms rare_history)).
  { apply rare_atoms; (eapply fine_composes with (s := []) (n := 1%Z); [exact Logic.I|]).
    - cbn [rdp_mc relation_eqb effective_noise bind nval]. unfold rdp_poisson_gaussian. rewrite !Rleb_true by lra. cbn [andb negb xltb]. rewrite Rltb_false by lra. reflexivity.
    - cbn [rdp_mc nval]. unfold rdp_poisson_gaussian. rewrite !Rleb_true by lra. cbn [andb negb xltb]. rewrite Rltb_false by lra. reflexivity. }
  destruct (runs_exists (log_a_frac Phi) fuel ADD_OR_REMOVE_ONE orders rare_history (rdp_new orders) PH) as [A HA]; [reflexivity | apply new_inv | exact C|].
  destruct (query_exists (normal_law Phi 1)) as [E1 H1].
  assert (NO : noisy (normal_law Phi) 1 1 E1) by (right; split; [lra|]; right; split; [lra | exact H1]).
  destruct (interaction_exists (map (rdp_event Phi ADD_OR_REMOVE_ONE) (history_atoms rare_history))) as [E HE].
  { apply Forall_forall. intros D. rewrite in_map_iff. intros (a & <- & Ia). revert a Ia. rewrite <- Forall_forall. apply rare_atoms.
    - eexists. exists 0%nat, rare, E1. split; [reflexivity|]. split; [|reflexivity]. left. exists (PyFloat 1), 1. auto.
    - exists E1, 0%nat. left. exists 1. auto. }
  exists A, E. split; [exact HA|]. split; [exact PH|]. split; [|split; [|split; [exact HE | reflexivity]]].
  - intros a b Ia. revert b. revert a Ia. apply (Forall_forall (fun a => forall b, In b (parts a) -> is_sampled b = true -> b = a)).
    apply rare_atoms; intros b [<-|[]]; intros; reflexivity.
  - intros a o Ia Io. cbn in Ia. destruct Ia as [<-|[<-|[]]]; [|exact Logic.I]. destruct Io as [<-|[<-|[]]]; cbn; intros [= X]; lra.
Qed.
