(** Privacy loss, its inverse and the divergence, for the four classes of additive noise. *)
From Verif Require Import Base XReal Exn PyDict TypesAdjacency SpecDP SpecMech SpecClasses ModelPmf ModelMake ModelRdp ModelLog ModelMech
  ProofDP ProofLog ProofPeak ProofNoise ProofShape ProofShapeGauss ProofShapeInt ProofAdditive ProofClasses.
Local Arguments Rltb : simpl never.
Local Arguments Rleb : simpl never.
Local Arguments Reqb : simpl never.

Section Top.
  Context (m : monotone) (ok : R -> Prop) (F f : R -> R) (s q : R) (adj : adjacency).
  Hypothesis HA : additive_noise m ok F f s q adj.

  Lemma mech_loss x l : privacy_loss m (Fin x) = Ok l -> log_ratio (upper_density adj f q s x) (lower_density adj f q s x) l.
  Proof.
    destruct (additive_instance _ _ _ _ _ _ _ HA) as [Hq Hs Ho Hf (pk & cdf & loss0 & inv0 & pt & L & disc & tail & bounds & E & HF & HL & HR & HD)].
    rewrite E. cbn [additive privacy_loss]. intros H. pose proof (loss_pt _ _ _ _ _ HL _ _ _ _ H) as P.
    rewrite (loss_ok _ _ _ _ _ HL q Hq adj x P) in H. injection H as <-. apply sub_loss_ratio; [assumption|].
    specialize (HR x P). destruct adj; exact HR.
  Qed.
  Lemma mech_defined x : ok x -> 0 < upper_density adj f q s x \/ 0 < lower_density adj f q s x ->
    exists l, privacy_loss m (Fin x) = Ok l.
  Proof.
    destruct (additive_instance _ _ _ _ _ _ _ HA) as [Hq Hs Ho Hf (pk & cdf & loss0 & inv0 & pt & L & disc & tail & bounds & E & HF & HL & HR & HD)].
    rewrite E. cbn [additive privacy_loss]. intros Hx P. eexists. apply (loss_ok _ _ _ _ _ HL q Hq adj x (HD x Hx P)).
  Qed.
  Lemma near_dec l : near_limit adj q l \/ ~ near_limit adj q l.
  Proof.
    unfold near_limit. destruct (Rlt_dec q 1); [|right; tauto].
    destruct (Rle_dec (Rabs (l - loss_limit adj q)) (1 / 10 ^ 9 * Rmax (Rabs l) (Rabs (loss_limit adj q)))); [left | right]; tauto.
  Qed.
  Lemma possible_dec l : loss_possible adj q l \/ ~ loss_possible adj q l.
  Proof.
    unfold loss_possible. destruct (Rlt_dec q 1); [|left; tauto].
    destruct adj; [destruct (Rlt_dec l (loss_limit ADD q)) | destruct (Rlt_dec (loss_limit REMOVE q) l)]; tauto.
  Qed.
  Lemma mech_galois x lx l p : privacy_loss m (Fin x) = Ok lx -> inverse_privacy_loss m (Fin l) = Ok p -> ~ near_limit adj q l ->
    xleb (Fin x) p = true <-> xleb (Fin l) lx = true.
  Proof.
    destruct (additive_instance _ _ _ _ _ _ _ HA) as [Hq Hs Ho Hf (pk & cdf & loss0 & inv0 & pt & L & disc & tail & bounds & E & HF & HL & HR & HD)].
    rewrite E. cbn [additive privacy_loss inverse_privacy_loss]. intros Hx Hp HN.
    destruct (possible_dec l) as [HP|HP].
    - rewrite (inverse_ok _ _ _ _ _ HF q Hq adj l HP HN) in Hp. injection Hp as <-. symmetry.
      apply (loss_galois _ _ _ _ _ HL q Hq adj x lx l Hx HP).
    - rewrite (inverse_raises inv0 q Hq adj l HP HN) in Hp. discriminate.
  Qed.
  Lemma mech_inverse_total l : ~ near_limit adj q l ->
    (loss_possible adj q l -> exists p, inverse_privacy_loss m (Fin l) = Ok p /\ p <> NaN) /\
    (~ loss_possible adj q l -> inverse_privacy_loss m (Fin l) = Err ValueError).
  Proof.
    destruct (additive_instance _ _ _ _ _ _ _ HA) as [Hq Hs Ho Hf (pk & cdf & loss0 & inv0 & pt & L & disc & tail & bounds & E & HF & HL & HR & HD)].
    rewrite E. cbn [additive privacy_loss inverse_privacy_loss]. intros HN. split; intros HP.
    - exists (peak adj q s pk l). split; [apply (inverse_ok _ _ _ _ _ HF q Hq adj l HP HN)|]. apply (law_uni _ _ _ _ _ HF q Hq adj l).
    - rewrite (inverse_raises inv0 q Hq adj l HP HN). reflexivity.
  Qed.
  Lemma mech_mono x y lx ly : privacy_loss m (Fin x) = Ok lx -> privacy_loss m (Fin y) = Ok ly -> x <= y -> xleb ly lx = true.
  Proof.
    destruct (additive_instance _ _ _ _ _ _ _ HA) as [Hq Hs Ho Hf (pk & cdf & loss0 & inv0 & pt & L & disc & tail & bounds & E & HF & HL & HR & HD)].
    rewrite E. cbn [additive privacy_loss]. apply (loss_mono _ _ _ _ _ HL q Hq adj).
  Qed.
  Lemma mech_delta eps : ~ near_limit adj q eps ->
    exists delta, get_delta_for_epsilon m eps = Ok (Fin delta) /\ divergence_is (upper_law adj F q s) (lower_law adj F q s) eps delta.
  Proof.
    destruct (additive_instance _ _ _ _ _ _ _ HA) as [Hq Hs Ho Hf (pk & cdf & loss0 & inv0 & pt & L & disc & tail & bounds & E & HF & HL & HR & HD)].
    rewrite E. cbn [additive get_delta_for_epsilon]. intros HN. eexists. split; [apply (get_delta_exact _ _ _ _ _ HF q Hq adj eps HN)|].
    apply (delta_at_peak _ _ _ _ _ HF q Hq).
  Qed.
  Lemma mech_delta_near eps : near_limit adj q eps ->
    exists d delta, get_delta_for_epsilon m eps = Ok (Fin d) /\ divergence_is (upper_law adj F q s) (lower_law adj F q s) eps delta /\
      d <= delta <= d + (exp (Rabs (eps - loss_limit adj q)) - 1).
  Proof.
    destruct (additive_instance _ _ _ _ _ _ _ HA) as [Hq Hs Ho Hf (pk & cdf & loss0 & inv0 & pt & L & disc & tail & bounds & E & HF & HL & HR & HD)].
    rewrite E. cbn [additive get_delta_for_epsilon]. intros HN. destruct (get_delta_near _ _ _ _ _ HF q Hq adj eps HN) as (d & Hd & B).
    exists d. eexists. split; [exact Hd|]. split; [apply (delta_at_peak _ _ _ _ _ HF q Hq) | exact B].
  Qed.
  Lemma mech_delta_01 eps d : get_delta_for_epsilon m eps = Ok (Fin d) -> 0 <= d <= 1.
  Proof.
    destruct (additive_instance _ _ _ _ _ _ _ HA) as [Hq Hs Ho Hf (pk & cdf & loss0 & inv0 & pt & L & disc & tail & bounds & E & HF & HL & HR & HD)].
    rewrite E. cbn [additive get_delta_for_epsilon].
    assert (C : forall x d, clip01 x = Fin d -> 0 <= d <= 1).
    { intros x d'. destruct x as [a| | |]; cbn [clip01]; intros [= <-]; try lra. split; [apply Rmin_glb; [lra | apply Rmax_l] | apply Rmin_l]. }
    unfold a_get_delta. destruct (Reqb q 1); [|destruct adj].
    - destruct (a_inverse_privacy_loss q adj (inv0 adj) (Fin eps)); cbn [bind]; [|discriminate]. intros [= H]. apply (C _ _ H).
    - destruct (xltb (Fin eps) (xneg (np_log1p (Fin (- q))))); [|intros [= <-]; lra].
      destruct (a_inverse_privacy_loss q ADD (inv0 ADD) (Fin eps)); cbn [bind]; [|discriminate]. intros [= H]. apply (C _ _ H).
    - destruct (xltb (np_log1p (Fin (- q))) (Fin eps)).
      + destruct (a_inverse_privacy_loss q REMOVE (inv0 REMOVE) (Fin eps)); cbn [bind]; [|discriminate]. intros [= H]. apply (C _ _ H).
      + intros [= H]. apply (C (Fin (- expm1 eps)) d). cbn. rewrite H. reflexivity.
  Qed.
End Top.

(** Every neighbouring pair is bounded by the two divergences. *)
Lemma mech_neighbours mr ma ok F f s q eps dr da E :
  additive_noise mr ok F f s q REMOVE -> additive_noise ma ok F f s q ADD ->
  ~ near_limit REMOVE q eps -> ~ near_limit ADD q eps ->
  get_delta_for_epsilon mr eps = Ok (Fin dr) -> get_delta_for_epsilon ma eps = Ok (Fin da) ->
  noisy_query ok F q s E -> valid E /\ dp E eps dr /\ dp (swap E) eps da.
Proof.
  intros HR HA NR NA ER EA HE. destruct (mech_delta _ _ _ _ _ _ _ HR eps NR) as (d1 & E1 & D1).
  destruct (mech_delta _ _ _ _ _ _ _ HA eps NA) as (d2 & E2 & D2).
  rewrite ER in E1. injection E1 as <-. rewrite EA in E2. injection E2 as <-.
  destruct (additive_instance _ _ _ _ _ _ _ HR) as [Hq Hs Ho Hf _].
  apply (noisy_query_bounded ok F Hf q s Hq (Rlt_le _ _ Hs) Ho E eps dr da HE D1 D2).
Qed.
(** For eps >= 0 the divergence for ADD is at most that for REMOVE. *)
Lemma add_le_remove F s pk q eps da dr : shape F s pk -> 0 < q <= 1 -> 0 <= eps ->
  divergence_is (remove_upper F q s) F eps dr -> divergence_is F (add_lower F q s) eps da -> da <= dr.
Proof.
  intros HS Hq He DR DA.
  rewrite (divergence_unique _ _ _ _ _ DA (divergence_peak _ _ _ _ (add_peaked F s pk q eps HS Hq))).
  rewrite (divergence_unique _ _ _ _ _ DR (divergence_peak _ _ _ _ (remove_peaked F s pk q eps HS Hq))).
  set (p := peak_add q s pk eps).
  assert (NP : p <> NaN) by apply (add_uni F s pk q eps HS Hq).
  assert (NP2 : xadd p (Fin (- s)) <> NaN) by (destruct p; cbn; congruence).
  eapply Rle_trans; [|apply (peaked_best _ _ _ (remove_peaked F s pk q eps HS Hq) _ NP2)].
  rewrite <- !at_end_gap. unfold remove_upper, add_lower. rewrite !at_end_sampled.
  assert (G : at_end (fun x => F (x + s)) (xadd p (Fin (- s))) = at_end F p).
  { destruct p as [a| | |]; cbn; try reflexivity. f_equal. ring. }
  rewrite G, at_end_shift. change (fun x => F (x - s)) with (fun x => F (x + - s)).
  assert (M : at_end (fun y => F (y + - s)) p <= at_end F p).
  { destruct HS as ((B & M & _) & Hs & _). destruct p as [a| | |]; cbn; try lra. apply M. lra. }
  assert (T : 1 <= exp eps) by (rewrite <- exp_0; apply exp_le, He).
  set (u := at_end F p) in *. set (v := at_end (fun y => F (y + - s)) p) in *.
  assert (0 <= (1 - q) * (exp eps - 1) * (u - v)) by (apply Rmult_le_pos; [apply Rmult_le_pos|]; lra). lra.
Qed.

(** ** Close to the limit of the privacy loss the inverse and the divergence are not exact *)
Lemma exp_40 : exp (- (40)) < 1 / 10 ^ 11.
Proof.
  assert (H : forall n, exp (- INR n) <= (1/2) ^ n).
  { induction n as [|n IH]; [cbn; rewrite Ropp_0, exp_0; lra|].
    replace (- INR (S n)) with (- INR n + - (1)) by (rewrite S_INR; ring). rewrite exp_plus. cbn [pow].
    assert (exp (- (1)) <= 1/2). { rewrite exp_Ropp. pose proof exp_le_3 as _. assert (2 < exp 1) by (pose proof (exp_ineq1 1 ltac:(lra)); lra).
      replace (1/2) with (/ 2) by lra. left. apply Rinv_lt_contravar; lra. }
    pose proof (exp_pos (- INR n)). pose proof (exp_pos (- (1))). rewrite Rmult_comm. apply Rmult_le_compat; lra. }
  specialize (H 40%nat). replace (INR 40) with 40 in H by (cbn; lra). eapply Rle_lt_trans; [exact H|]. lra.
Qed.
Lemma ln_2_bounds : 1/2 < ln 2 < 1.
Proof.
  pose proof ln_lt_2. split; [lra|]. assert (2 < exp 1) by (pose proof (exp_ineq1 1 ltac:(lra)); lra).
  rewrite <- (ln_exp 1). apply ln_increasing; lra.
Qed.
Lemma near_point adj : near_limit adj (1/2) (loss_limit adj (1/2) * (1 - 1 / 10 ^ 10)).
Proof.
  pose proof ln_2_bounds as L2. assert (E : ln (1 - 1/2) = - ln 2) by (rewrite <- ln_Rinv by lra; f_equal; lra).
  split; [lra|]. destruct adj; cbn [loss_limit]; rewrite E.
  - replace (- - ln 2 * (1 - 1 / 10 ^ 10) - - - ln 2) with (- (ln 2 * (1 / 10 ^ 10))) by ring. rewrite Rabs_Ropp, Rabs_right by lra.
    rewrite Rmax_right; rewrite ?Rabs_right by lra; lra.
  - replace (- ln 2 * (1 - 1 / 10 ^ 10) - - ln 2) with (ln 2 * (1 / 10 ^ 10)) by ring. rewrite Rabs_right by lra.
    rewrite Rmax_right; rewrite ?Rabs_left by lra; lra.
Qed.
Definition m40 (adj : adjacency) : monotone :=
  additive 40 (1/2) adj (laplace_cdf 1) (laplace_loss0 1 40 adj) (laplace_inverse0 1 40 adj) false (laplace_tail 1 40 (1/2) adj) (laplace_bounds 1 40 (1/2) adj).
Lemma m40_ok adj : LaplacePrivacyLoss 1 40 (1/2) adj = Ok (m40 adj).
Proof. unfold LaplacePrivacyLoss. rewrite Rleb_false by lra. rewrite check_additive_true by lra. reflexivity. Qed.
Lemma inverse_near_refuted : exists m l x lx,
  LaplacePrivacyLoss 1 40 (1/2) REMOVE = Ok m /\ inverse_privacy_loss m (Fin l) = Ok PInf /\
  privacy_loss m (Fin x) = Ok (Fin lx) /\ lx < l.
Proof.
  exists (m40 REMOVE), (loss_limit REMOVE (1/2) * (1 - 1 / 10 ^ 10)), 0.
  pose proof (near_point REMOVE) as N. pose proof ln_2_bounds as L2.
  exists (ln (1/2 * exp (- (40)) + (1 - 1/2))). split; [apply m40_ok|]. split; [|split].
  - unfold m40. cbn [additive inverse_privacy_loss]. unfold a_inverse_privacy_loss. rewrite Reqb_false by lra.
    rewrite (limit_val (1/2) REMOVE) by lra. rewrite (proj2 (isclose_near (1/2) REMOVE _ ltac:(lra)) N).
    unfold laplace_inverse0. cbn [xmul]. unfold inf_times. rewrite Rltb_true by lra. reflexivity.
  - unfold m40. cbn [additive privacy_loss]. erewrite sub_loss_ok; [| lra | reflexivity | discriminate]. cbn [sub_loss sub_remove].
    do 6 f_equal. rewrite Rabs_R0, Rplus_0_l, Rabs_right by lra. field.
  - cbn [loss_limit]. assert (E : ln (1 - 1/2) = - ln 2) by (rewrite <- ln_Rinv by lra; f_equal; lra). rewrite E.
    pose proof exp_40. pose proof (exp_pos (- (40))).
    replace (1/2 * exp (- (40)) + (1 - 1/2)) with (/ 2 * (1 + exp (- (40)))) by lra.
    rewrite ln_mult, ln_Rinv by lra. assert (ln (1 + exp (- (40))) <= exp (- (40))).
    { rewrite <- (ln_exp (exp (- (40)))) at 2. apply ln_le_iff; [lra | apply exp_pos|]. left. apply exp_ineq1. lra. }
    lra.
Qed.
Lemma delta_near_refuted : exists m eps delta,
  LaplacePrivacyLoss 1 40 (1/2) ADD = Ok m /\ get_delta_for_epsilon m eps = Ok (Fin 0) /\
  divergence_is (upper_law ADD (laplace_law 1) (1/2) 40) (lower_law ADD (laplace_law 1) (1/2) 40) eps delta /\ 0 < delta.
Proof.
  pose proof (laplace_fits 1 40 ltac:(lra) ltac:(lra)) as HF. assert (Hq : 0 < 1/2 <= 1) by lra.
  set (eps := loss_limit ADD (1/2) * (1 - 1 / 10 ^ 10)).
  exists (m40 ADD), eps, (delta_at (laplace_law 1) 40 (1/2) ADD eps (peak ADD (1/2) 40 (laplace_peak 1 40) eps)).
  pose proof (near_point ADD) as N. pose proof ln_2_bounds as L2. fold eps in N. split; [apply m40_ok|]. 
  assert (E : ln (1 - 1/2) = - ln 2) by (rewrite <- ln_Rinv by lra; f_equal; lra).
  assert (LT : eps < - ln (1 - 1/2)) by (unfold eps; cbn [loss_limit]; rewrite E; lra).
  split; [|split].
  - unfold m40. cbn [additive get_delta_for_epsilon]. unfold a_get_delta. rewrite Reqb_false by lra.
    change (np_log1p (Fin (- (1/2)))) with (np_log (Fin (1 + - (1/2)))). rewrite np_log_pos by lra. cbn [xneg xltb].
    rewrite Rltb_true by (replace (1 + - (1/2)) with (1 - 1/2) by lra; exact LT).
    unfold a_inverse_privacy_loss. rewrite Reqb_false by lra.
    rewrite (limit_val (1/2) ADD) by lra. rewrite (proj2 (isclose_near (1/2) ADD eps ltac:(lra)) N).
    unfold laplace_inverse0. cbn [xmul]. unfold inf_times. rewrite Rltb_true by lra. cbn [xltb bind].
    rewrite (get_delta_at_any _ _ _ _ _ HF (1/2) Hq ADD eps MInf) by discriminate. do 2 f_equal. unfold delta_at. cbn [at_end]. rewrite Rmax_left; lra.
  - apply (delta_at_peak _ _ _ _ _ HF (1/2) Hq).
  - eapply Rlt_le_trans; [|apply (delta_at_best _ _ _ _ _ HF (1/2) Hq ADD eps (Fin 0)); discriminate].
    rewrite delta_at_add. cbn [xadd at_end]. unfold laplace_law. rewrite Rltb_false, Rltb_true by lra.
    replace (- 0 / 1) with 0 by field. rewrite exp_0. replace ((0 + - (40)) / 1) with (- (40)) by field.
    assert (T : exp eps = 2 * exp (- (ln 2 / 10 ^ 10))).
    { unfold eps. cbn [loss_limit]. rewrite E. replace (- - ln 2 * (1 - 1 / 10 ^ 10)) with (ln 2 + - (ln 2 / 10 ^ 10)) by field.
      rewrite exp_plus, exp_ln by lra. reflexivity. }
    rewrite T, exp_Ropp. pose proof exp_40 as E4. pose proof (exp_pos (- (40))) as P4.
    assert (G : 1 + ln 2 / 10 ^ 10 < exp (ln 2 / 10 ^ 10)) by (apply exp_ineq1; lra).
    set (z := exp (ln 2 / 10 ^ 10)) in *. set (w := exp (- (40))) in *.
    replace ((1 - 2 * / z * (1 - 1 / 2)) * (1 - 1 / 2) - 2 * / z * (1 / 2) * (w / 2)) with ((z - 1 - w) / 2 * / z) by (field; lra).
    apply Rmult_lt_0_compat; [lra | apply Rinv_0_lt_compat; lra].
Qed.
