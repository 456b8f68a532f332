(** What the mean mechanism returns; the budget of a gradient step. *)
From Coq Require Import String.
From Verif Require Import Base Exn XReal TypesMean ModelSvt ModelMean SpecDP SpecMech SpecRenyi SpecRun SpecMean ProofDP ProofShape ProofPeak ProofNoise ProofRun ProofSvtDp ProofRenyi ProofGaussRdp ProofSplit ProofGaussPair ProofMeanDp ProofMeanPriv.
Local Open Scope R_scope.

Lemma budget_share c : 1 / budget_scale c / mean_epsilon c = 1 / epsilon_share c \/ mean_epsilon c = 0.
Proof.
  destruct (Req_dec (mean_epsilon c) 0) as [Z|Z]; [right; exact Z|left]. unfold budget_scale, epsilon_share. destruct (noised_mean c), (noised_scale c); cbn; field; lra.
Qed.
Lemma factor_model c : 0 <= mean_delta c <= 1 -> noise_factor c = Fin (factor (mean_delta c)).
Proof.
  intros H. unfold noise_factor, factor. destruct (Reqb_spec (mean_delta c) 0) as [E|N]; [reflexivity|].
  rewrite Rltb_false by lra. destruct (gaussian_factor_sq (mean_delta c) ltac:(lra)) as (_ & Q & L & _). rewrite Rltb_false by lra. reflexivity.
Qed.
Lemma rsum_map {A B} (f : B -> R) (g : A -> B) l : rsum f (map g l) = rsum (fun x => f (g x)) l.
Proof. induction l as [|x l IH]; cbn [map rsum]; [reflexivity | rewrite IH; reflexivity]. Qed.
Lemma combine_map_r {A B} (f : A -> B) l : combine l (map f l) = map (fun a => (a, f a)) l.
Proof. induction l as [|a l IH]; cbn; [reflexivity | rewrite IH; reflexivity]. Qed.

Lemma mean_output cn vn c data m : 0 < mean_epsilon c -> 0 <= mean_delta c <= 1 -> data <> [] ->
  (forall i, (i < m)%nat -> INR (List.length data) + 1 / epsilon_share c * cn i <> 0) ->
  mean_call cn vn c data m = Ok (map (fun i =>
    let k := INR (List.length data) + 1 / epsilon_share c * cn i in
    Fin (mean_given c data k + scale_given c data k * vn i)) (seq 0 m)).
Proof.
  intros He Hd Hn Hk. unfold mean_call, get_counts. rewrite Reqb_false by lra. destruct (budget_share c) as [BS|]; [|lra]. rewrite BS.
  pose proof (share_pos c He) as SP. assert (0 < 1 / epsilon_share c) by (apply Rdiv_lt_0_compat; lra). rewrite Rltb_false by lra. cbn [bind].
  rewrite combine_map_r, map_map, map_length, rsum_map. f_equal. apply map_ext_in. intros i Hi. apply in_seq in Hi. specialize (Hk i ltac:(lia)).
  set (k := INR (List.length data) + 1 / epsilon_share c * cn i) in *.
  assert (PN : INR (List.length data) <> 0) by (destruct data; [congruence|]; cbn [List.length]; rewrite S_INR; pose proof (pos_INR (List.length data)); lra).
  assert (C1 : (if noised_mean c then k else INR (List.length data)) <> 0) by (destruct (noised_mean c); assumption).
  assert (C2 : (if noised_scale c then k else INR (List.length data)) <> 0) by (destruct (noised_scale c); assumption).
  rewrite factor_model by exact Hd. cbn [xmul xdiv]. assert (B0 : budget_scale c <> 0) by (unfold budget_scale; destruct (_ || _)%bool; lra).
  rewrite !Reqb_false by (assumption || lra). cbn [xmul xdiv]. rewrite !Reqb_false by (assumption || lra). cbn [xmul xdiv]. rewrite !Reqb_false by (assumption || lra). cbn [xmul xdiv np_maximum xltb xadd].
  assert (SC : factor (mean_delta c) * Rabs (mean_max c - mean_min c) / budget_scale c / mean_epsilon c = factor (mean_delta c) * Rabs (mean_max c - mean_min c) / epsilon_share c).
  { replace (factor (mean_delta c) * Rabs (mean_max c - mean_min c) / budget_scale c / mean_epsilon c) with (factor (mean_delta c) * Rabs (mean_max c - mean_min c) * (1 / budget_scale c / mean_epsilon c)) by (field; lra).
    rewrite BS. field. lra. }
  rewrite SC. unfold scale_given, mean_given, zero_tolerance. set (w := factor (mean_delta c) * _ / _ / _).
  destruct (Rltb_spec (1 / 10 ^ 12) w) as [L|L]; cbn [xmul xadd]; [rewrite Rmax_right by lra | rewrite Rmax_left by lra]; reflexivity.
Qed.
Lemma mean_raises cn vn c data m : mean_epsilon c <= 0 -> mean_call cn vn c data m = Err (if Reqb (mean_epsilon c) 0 then ZeroDivisionError else ValueError).
Proof.
  intros H. unfold mean_call, get_counts. destruct (Reqb_spec (mean_epsilon c) 0) as [E|N]; [reflexivity|].
  rewrite Rltb_true; [reflexivity|]. assert (0 < 1 / budget_scale c) by (unfold budget_scale; destruct (_ || _)%bool; lra).
  replace (1 / budget_scale c / mean_epsilon c) with (- (1 / budget_scale c / - mean_epsilon c)) by (field; unfold budget_scale; destruct (_ || _)%bool; repeat split; lra).
  assert (0 < 1 / budget_scale c / - mean_epsilon c) by (apply Rdiv_lt_0_compat; lra). lra.
Qed.
Lemma mean_empty cn vn c m : 0 < mean_epsilon c -> noised_mean c = false -> mean_call cn vn c [] m = Ok (map (fun _ => NaN) (seq 0 m)).
Proof.
  intros He F1. unfold mean_call, get_counts. rewrite Reqb_false by lra. destruct (budget_share c) as [BS|]; [|lra]. rewrite BS.
  pose proof (share_pos c He) as SP. assert (0 < 1 / epsilon_share c) by (apply Rdiv_lt_0_compat; lra). rewrite Rltb_false by lra. cbn [bind map List.length INR].
  rewrite combine_map_r, map_map. f_equal. apply map_ext. intros i. rewrite F1. cbn [rsum xdiv]. rewrite (Reqb_true 0 0) by reflexivity. rewrite ?Rltb_false by lra. cbn [xadd].
  reflexivity.
Qed.
Lemma mean_example : mean_call (fun _ => 0) (fun i => match i with O => 1 | _ => -1 end) (mkMean 1 0 true true 1 0) [1/2; 3; -1; 1/2] 2 = Ok [Fin 1; Fin 0].
Proof.
  rewrite mean_output; cbn [mean_epsilon mean_delta]; [|lra|lra|discriminate|].
  - cbn [seq map]. unfold mean_given, scale_given, epsilon_share, factor. cbn [mean_epsilon mean_delta noised_mean noised_scale mean_max mean_min List.length INR rsum].
    rewrite (Reqb_true 0 0) by reflexivity. unfold bounded. cbn [mean_max mean_min]. rewrite (Rabs_right (1 - 0)) by lra.
    rewrite (Rmax_left (1/2) 0), (Rmin_left (1/2) 1), (Rmax_left 3 0), (Rmin_right 3 1), (Rmax_right (-1) 0), (Rmin_left 0 1) by lra.
    rewrite Rmax_right by lra. do 2 f_equal; [|f_equal]; f_equal; field.
  - intros i _. unfold epsilon_share. cbn [noised_mean mean_epsilon]. cbn [List.length INR]. lra.
Qed.

(** ** The gradient step *)
Lemma step_form Phi far nm clip E : normal_cdf Phi -> 0 < nm -> 0 < clip -> noisy_step Phi far nm clip E -> valid E.
Proof.
  intros HP Hn Hc (u & v & cuts & Hd & HC & ->). destruct HP as (CD & _).
  apply observe_valid; [apply (scaled_cdf Phi (nm * clip) u) | apply (scaled_cdf Phi (nm * clip) v) | exact HC]; try assumption; apply Rmult_lt_0_compat; assumption.
Qed.
Lemma step_one_way Phi far nm clip a E : normal_cdf Phi -> 0 <= far -> 0 < nm -> 0 < clip -> 1 < a -> noisy_step Phi far nm clip E ->
  renyi_bounded E (Fin a) (Fin (a * (far * far) / (2 * nm ^ 2))).
Proof.
  intros HP Hf Hn Hc Ha HE. pose proof (step_form Phi far nm clip E HP Hn Hc HE) as V. destruct HE as (u & v & cuts & Hd & HC & ->).
  assert (Hw : 0 < nm * clip) by (apply Rmult_lt_0_compat; assumption).
  destruct (gauss_moment_cells Phi HP v (u - v) (nm * clip) a cuts Hw Ha HC) as (AC & M). replace (v + (u - v)) with u in AC, M by ring.
  split; [exact AC|]. split; [lra|]. apply renyi_moment_le; [exact V | exact AC | exact Ha|]. eapply Rle_trans; [exact M|]. apply exp_le.
  set (q := (u - v) / (nm * clip)). assert (Q : q * q <= far * far / nm ^ 2).
  { assert (A : Rabs q <= far / nm).
    { unfold q, Rdiv. rewrite Rabs_mult, (Rabs_right (/ (nm * clip))) by (left; apply Rinv_0_lt_compat, Hw).
      apply (Rmult_le_reg_r (nm * clip)); [exact Hw|]. rewrite Rmult_assoc, Rinv_l by lra. replace (far * / nm * (nm * clip)) with (far * clip) by (field; lra). lra. }
    replace (far * far / nm ^ 2) with (far / nm * (far / nm)) by (field; lra). rewrite <- (Rabs_sqr_eq q) || idtac.
    assert (q * q = Rabs q * Rabs q) as -> by (unfold Rabs; destruct (Rcase_abs q); ring). pose proof (Rabs_pos q). nra. }
  replace ((a - 1) * (a * (far * far) / (2 * nm ^ 2))) with (a * (a - 1) * (far * far / nm ^ 2) / 2) by (field; lra).
  apply Rmult_le_compat_r; [lra|]. apply Rmult_le_compat_l; [nra | exact Q].
Qed.
Lemma step_sym Phi far nm clip E : noisy_step Phi far nm clip E -> noisy_step Phi far nm clip (swap E).
Proof. intros (u & v & cuts & Hd & HC & ->). exists v, u, cuts. rewrite Rabs_minus_sym. repeat split; assumption. Qed.
(** The right budget is [far * far] times the returned one. *)
Lemma step_budget Phi far nm clip a E e : normal_cdf Phi -> 0 <= far -> 0 < nm -> 0 < clip -> 1 < a -> noisy_step Phi far nm clip E ->
  wrong_one_step_gd_budget nm a = Ok e -> rdp_bounded E (Fin a) (Fin (far * far * e)).
Proof.
  intros HP Hf Hn Hc Ha HE. unfold wrong_one_step_gd_budget. destruct (Reqb_spec (2 * nm ^ 2) 0) as [Z|Z]; [discriminate|]. intros [= <-].
  assert (0 < nm ^ 2) by nra. assert (W : far * far * (a / (2 * nm ^ 2)) = a * (far * far) / (2 * nm ^ 2)) by (field; lra). unfold rdp_bounded. change (2 * (nm * (nm * 1))) with (2 * nm ^ 2). rewrite W.
  split; [apply (step_one_way Phi far nm clip) | apply (step_one_way Phi far nm clip)]; try assumption. apply step_sym, HE.
Qed.
Lemma step_four Phi nm clip a E e : normal_cdf Phi -> 0 < nm -> 0 < clip -> 1 < a -> wrong_one_step_gd_budget nm a = Ok e ->
  (noisy_step Phi 2 nm clip E -> rdp_bounded E (Fin a) (Fin (4 * e))) /\ (noisy_step Phi 1 nm clip E -> rdp_bounded E (Fin a) (Fin e)).
Proof.
  intros HP Hn Hc Ha He. split; intros HE.
  - replace (4 * e) with (2 * 2 * e) by ring. apply (step_budget Phi 2 nm clip); try assumption. lra.
  - replace e with (1 * 1 * e) by ring. apply (step_budget Phi 1 nm clip); try assumption. lra.
Qed.
(** The returned one does not hold, for some clipped sums. *)
Lemma step_wrong Phi nm clip a e : normal_cdf Phi -> 0 < nm -> 0 < clip -> 1 < a -> ln 2 < (a - 1) * (4 - a) / (2 * nm ^ 2) ->
  wrong_one_step_gd_budget nm a = Ok e -> exists E, noisy_step Phi 2 nm clip E /\ ~ renyi_bounded E (Fin a) (Fin e).
Proof.
  intros HP Hn Hc Ha Hl. unfold wrong_one_step_gd_budget. destruct (Reqb_spec (2 * nm ^ 2) 0) as [Z|Z]; [discriminate|]. intros [= <-].
  assert (N2 : 0 < nm ^ 2) by nra. set (w := nm * clip). assert (Hw : 0 < w) by (apply Rmult_lt_0_compat; assumption).
  set (E := observe (fun x => Phi ((x - 0) / w)) (fun x => Phi ((x - 2 * clip) / w)) [0]). exists E.
  assert (HE : noisy_step Phi 2 nm clip E).
  { exists 0, (2 * clip), [0]. split; [rewrite Rabs_left; lra|]. split; [repeat constructor | reflexivity]. }
  split; [exact HE|]. intros (AC & _ & RB). pose proof (step_form Phi 2 nm clip E HP Hn Hc HE) as V.
  apply (renyi_moment_le E a (a / (2 * nm ^ 2)) V AC Ha) in RB.
  set (mu := 2 / nm). assert (Hmu : 0 < mu) by (unfold mu; apply Rdiv_lt_0_compat; lra).
  pose proof (normal_tail Phi mu HP (Rlt_le _ _ Hmu)) as T. pose proof (normal_zero Phi HP) as Z0.
  assert (EP : prP E (MInf, Fin 0) = 1 / 2).
  { cbn. rewrite Rminus_0_r. replace ((0 - 0) / w) with 0 by (field; lra). lra. }
  assert (EQ : prQ E (MInf, Fin 0) = Phi (- mu)).
  { cbn. rewrite Rminus_0_r. f_equal. unfold w, mu. field. lra. }
  assert (Q0 : 0 < Phi (- mu)).
  { destruct V as (V & _). destruct (V (MInf, Fin 0) ltac:(left; reflexivity)) as [_ Q0]. rewrite EQ in Q0. destruct Q0 as [Q0|Q0]; [exact Q0|]. exfalso.
    specialize (AC (MInf, Fin 0) ltac:(left; reflexivity)). rewrite EP, EQ in AC. specialize (AC (eq_sym Q0)). lra. }
  assert (M : 1 / 2 * Rpower (1 / 2 / Phi (- mu)) (a - 1) <= renyi_moment E a).
  { change (renyi_moment E a) with ((if Reqb (prP E (MInf, Fin 0)) 0 then 0 else prP E (MInf, Fin 0) * Rpower (prP E (MInf, Fin 0) / prQ E (MInf, Fin 0)) (a - 1))
      + ((if Reqb (prP E (Fin 0, PInf)) 0 then 0 else prP E (Fin 0, PInf) * Rpower (prP E (Fin 0, PInf) / prQ E (Fin 0, PInf)) (a - 1)) + 0)).
    rewrite EP, EQ, Reqb_false by lra. enough (0 <= (if Reqb (prP E (Fin 0, PInf)) 0 then 0 else prP E (Fin 0, PInf) * Rpower (prP E (Fin 0, PInf) / prQ E (Fin 0, PInf)) (a - 1))) by lra.
    destruct (Reqb (prP E (Fin 0, PInf)) 0); [lra|]. destruct V as (V & _). apply Rmult_le_pos; [apply (V (Fin 0, PInf)); right; left; reflexivity | left; apply exp_pos]. }
  assert (R : exp (mu * mu / 2) <= 1 / 2 / Phi (- mu)).
  { apply (Rmult_le_reg_r (Phi (- mu))); [exact Q0|]. unfold Rdiv at 2. rewrite Rmult_assoc, Rinv_l, Rmult_1_r by lra.
    apply Rle_trans with (exp (mu * mu / 2) * (exp (- (mu * mu) / 2) / 2)); [apply Rmult_le_compat_l; [left; apply exp_pos | exact T]|].
    replace (exp (mu * mu / 2) * (exp (- (mu * mu) / 2) / 2)) with (exp (mu * mu / 2) * exp (- (mu * mu) / 2) / 2) by field. rewrite <- exp_plus.
    replace (mu * mu / 2 + - (mu * mu) / 2) with 0 by field. rewrite exp_0. lra. }
  assert (LR : mu * mu / 2 <= ln (1 / 2 / Phi (- mu))).
  { rewrite <- (ln_exp (mu * mu / 2)). destruct R as [R|R]; [left; apply ln_increasing; [apply exp_pos | exact R] | right; f_equal; exact R]. }
  assert (G : exp ((a - 1) * (a / (2 * nm ^ 2))) < 1 / 2 * Rpower (1 / 2 / Phi (- mu)) (a - 1)).
  { replace (1 / 2) with (exp (- ln 2)) at 1 by (rewrite exp_Ropp, exp_ln by lra; lra). unfold Rpower. rewrite <- exp_plus. apply exp_increasing.
    assert (K : (a - 1) * (mu * mu / 2) <= (a - 1) * ln (1 / 2 / Phi (- mu))) by (apply Rmult_le_compat_l; lra).
    replace (mu * mu / 2) with (4 / (2 * nm ^ 2)) in K by (unfold mu; field; lra).
    replace ((a - 1) * (4 - a) / (2 * nm ^ 2)) with ((a - 1) * (4 / (2 * nm ^ 2)) - (a - 1) * (a / (2 * nm ^ 2))) in Hl by (field; lra). lra. }
  lra.
Qed.
Lemma budget_example : wrong_one_step_gd_budget (1/2) 2 = Ok 4 /\ ln 2 < (2 - 1) * (4 - 2) / (2 * (1/2) ^ 2) /\ wrong_one_step_gd_budget 0 2 = Err ZeroDivisionError.
Proof.
  unfold wrong_one_step_gd_budget. rewrite Reqb_false by lra. rewrite Reqb_true by lra. pose proof (ln_lt_2). repeat split; [f_equal; field | ].
  assert (ln 2 < 1). { apply Rlt_le_trans with (ln (exp 1)); [|rewrite ln_exp; lra]. apply ln_increasing; [lra|]. pose proof (exp_ineq1 1 ltac:(lra)). lra. } lra.
Qed.
(** The configurations by name. *)
Lemma mean_names e delta :
  default_mean_config "private_mean" e delta = Ok (mkMean e delta true true 1 0)
  /\ default_mean_config "non_private_mean_v1" e delta = Ok (mkMean e delta false false 1 0)
  /\ default_mean_config "non_private_mean_v2" e delta = Ok (mkMean e delta false true 1 0)
  /\ (forall name, ~ In name ["private_mean"; "non_private_mean_v1"; "non_private_mean_v2"]%string -> default_mean_config name e delta = Err AttributeError).
Proof.
  repeat split. intros name N. unfold default_mean_config.
  destruct (String.eqb_spec name "non_private_mean_v1") as [->|_]; [exfalso; apply N; cbn; auto|].
  destruct (String.eqb_spec name "non_private_mean_v2") as [->|_]; [exfalso; apply N; cbn; auto|].
  destruct (String.eqb_spec name "private_mean") as [->|_]; [exfalso; apply N; cbn; auto | reflexivity].
Qed.
