(** Audits with the tester of the maximum mean discrepancy, the value of its estimate, and what
    happens with a negative bandwidth. *)
From Verif Require Import Base Exn XReal TypesAudit SpecDP SpecAudit SpecRenyi ModelAudit TypesTesters ModelTesters SpecTesters
  ProofHoeffding ProofTailBounds ProofTailSums ProofTrained ProofHockey ProofTesterRun ProofMmdTail ProofMmd ProofTesterEx.
Local Arguments Rltb : simpl never.
Local Arguments Rleb : simpl never.
Local Arguments Reqb : simpl never.

(** Any threshold for which the mechanism is private. *)
Lemma mmd_lower E (m : outcome E -> list R) c t eps delta failure n1 n2 :
  new_mmd c = Ok t -> a_epsilon (mc_approximate c) = Some eps -> 0 <= mc_bandwidth c ->
  valid E -> 0 <= delta -> dp_both E eps delta -> 0 < failure ->
  mean (law_P E) n1 (fun s1 => mean (law_Q E) n2 (fun s2 =>
    indicator (rejects (fun v => xltb (Fin delta) v) (mmd_estimate t (map m s1) (map m s2) failure)))) <= 2 * failure.
Proof.
  intros Hc Ee Hb Hv Hd [D1 D2] Hf. apply new_mmd_inv in Hc. destruct Hc as (Ee' & Ed' & He & Hd' & Eb).
  rewrite Ee in Ee'. injection Ee' as ->.
  destruct (variation E _ _ Hv D1 D2) as (tau & T0 & T1 & T2).
  destruct (variation (swap E) _ _ (valid_swap E Hv) D2 D1) as (tau' & T0' & T1' & T2').
  unfold mmd_estimate.
  apply (mmd_test (law_P E) (law_Q E) m m (kernel t) (mt_epsilon t) delta (Rmax tau tau')); try assumption; try lra.
  - apply law_P_ok; exact Hv.
  - apply law_Q_ok; exact Hv.
  - intros f lo hi Hf'. rewrite expect_P, expect_Q. eapply Rle_trans; [apply (T2 (fun a => f (m a)) lo hi); intros; apply Hf'|].
    apply Rmult_le_compat_r; [pose proof (Hf' []); lra|apply Rmax_l].
  - intros f lo hi Hf'. rewrite expect_P, expect_Q. eapply Rle_trans; [apply (T2' (fun a => f (m a)) lo hi); intros; apply Hf'|].
    apply Rmult_le_compat_r; [pose proof (Hf' []); lra|apply Rmax_r].
  - apply kernel_sym.
  - intros x y. apply kernel_range. rewrite Eb. exact Hb.
  - apply Rle_trans with tau; [exact T0|apply Rmax_l].
  - unfold Rmax. destruct (Rle_dec tau tau'); assumption.
Qed.

Lemma mmd_audit {S D O} (om : list (O * R)) (m : D -> O -> list R) (gen : option xr -> S -> D * D * S) np_tanh chebyshev h mc t c g :
  new_mmd mc = Ok t -> 0 <= mc_bandwidth mc -> distribution om ->
  (runner_post c = NONE /\ (forall a, h a = a)) \/ (runner_post c = TANH /\ forall s, np_tanh s = Ok (map h s)) ->
  (forall last g, let '(d1, d2, _) := gen last g in pair_satisfies om (mkProperty None None (Some (mc_approximate mc))) (m d1) (m d2)) ->
  0 < failure_probability c ->
  mean om (Z.to_nat (max_num_trials c) * (num_samples c + num_samples c)) (fun tape =>
    indicator (reports_violation
      (test_privacy (tape_generator gen) (tape_mechanism m) (tape_tester (stateless (mmd_estimate t)))
         (mmd_reject t) (fun a b => xltb b a) np_tanh chebyshev c (g, tape))))
  <= IZR (Z.max 0 (max_num_trials c)) * (4 * failure_probability c).
Proof.
  intros Hc Hb Hom Hp Hdp Hf. set (B := 2 * failure_probability c).
  apply new_mmd_inv in Hc. destruct Hc as (Ee & Ed & He & Hd & Eb).
  replace (4 * failure_probability c) with (B + B) by (unfold B; ring).
  apply (audit_bound om m gen (stateless (mmd_estimate t)) (mmd_reject t) _ np_tanh chebyshev h c (B + B) Hom (post_map _ _ _ _ Hp)); [unfold B; lra|].
  intros last s0 s. pose proof (Hdp last s0) as H. destruct (gen last s0) as [[d1 d2] s0']. destruct H as (outs & pP & pQ & Hv & HL & Hs).
  set (E := mkExper (list R) outs pP pQ) in *. destruct Hs as (_ & _ & Hs). destruct (Hs _ _ _ eq_refl Ee Ed) as [D1 D2].
  destruct (variation E _ _ Hv D1 D2) as (tau & T0 & T1 & T2).
  destruct (variation (swap E) _ _ (valid_swap E Hv) D2 D1) as (tau' & T0' & T1' & T2').
  set (tm := Rmax tau tau').
  assert (C1 : close om om (fun o => h (m d1 o)) (fun o => h (m d2 o)) tm).
  { intros f lo hi Hf'. destruct (HL (fun a => f (h a))) as [L1 L2]. unfold expect. rewrite L1, L2.
    eapply Rle_trans; [apply (T2 (fun a => f (h a)) lo hi); intros; apply Hf'|]. apply Rmult_le_compat_r; [pose proof (Hf' []); lra|apply Rmax_l]. }
  assert (C2 : close om om (fun o => h (m d2 o)) (fun o => h (m d1 o)) tm).
  { intros f lo hi Hf'. destruct (HL (fun a => f (h a))) as [L1 L2]. unfold expect. rewrite L1, L2.
    eapply Rle_trans; [apply (T2' (fun a => f (h a)) lo hi); intros; apply Hf'|]. apply Rmult_le_compat_r; [pose proof (Hf' []); lra|apply Rmax_r]. }
  assert (Ht : 0 <= tm) by (apply Rle_trans with tau; [exact T0|apply Rmax_l]).
  assert (Ht1 : tm * (exp (mt_epsilon t) + 1) <= exp (mt_epsilon t) - 1 + 2 * mt_delta t) by (unfold tm, Rmax; destruct (Rle_dec tau tau'); assumption).
  assert (Hk : forall x y, 0 <= kernel t x y <= 1) by (intros; apply kernel_range; lra).
  pose proof (mmd_test om om _ _ (kernel t) (mt_epsilon t) (mt_delta t) tm (failure_probability c) (num_samples c) (num_samples c) Hom Hom C1 C2 (kernel_sym t) Hk ltac:(lra) Hd Ht Ht1 Hf) as B1.
  pose proof (mmd_test om om _ _ (kernel t) (mt_epsilon t) (mt_delta t) tm (failure_probability c) (num_samples c) (num_samples c) Hom Hom C2 C1 (kernel_sym t) Hk ltac:(lra) Hd Ht Ht1 Hf) as B2.
  rewrite (mean_swap om om _ _ Hom) in B2. fold B in B1, B2.
  eapply Rle_trans; [|apply (Rplus_le_compat _ _ _ _ B1 B2)]. rewrite <- mean_plus. apply (mean_le om Hom). intros l1 _. rewrite <- mean_plus.
  apply (mean_le om Hom). intros l2 _. rewrite !map_map. unfold trial_rejects, stateless.
  change (mmd_estimate t) with (mmd_estimate_with (kernel t) (mt_epsilon t)). change (mmd_reject t) with (exceeds (mt_delta t)).
  destruct (mmd_estimate_with (kernel t) (mt_epsilon t) (map (fun o => h (m d1 o)) l1) (map (fun o => h (m d2 o)) l2) (failure_probability c)) as [e1|]; cbn [bind rejects].
  2:{ destruct (mmd_estimate_with _ _ _ _ _); cbn [rejects indicator]; [destruct (exceeds _ _); cbn [indicator]; lra|lra]. }
  destruct (mmd_estimate_with (kernel t) (mt_epsilon t) (map (fun o => h (m d2 o)) l2) (map (fun o => h (m d1 o)) l1) (failure_probability c)) as [e2|]; cbn [bind rejects].
  2:{ destruct (exceeds _ _); cbn [indicator]; lra. }
  destruct (exceeds (mt_delta t) e1), (exceeds (mt_delta t) e2); cbn [orb indicator]; lra.
Qed.

(** * The value of the estimate *)
Lemma delta_value eps mean t :
  mmd_delta eps mean (Fin t)
  = Fin ((sqrt (Rmax 0 ((exp eps - exp (- eps)) ^ 2 + (1 + exp (- eps)) * (mean - t - (exp eps - 1) ^ 2))) - (exp eps - exp (- eps))) / (1 + exp (- eps))).
Proof.
  unfold mmd_delta, py_max. cbn [xadd xsub xneg xmul xltb]. pose proof (exp_pos (- eps)).
  replace (mean + - t + - (exp eps - 1) ^ 2) with (mean - t - (exp eps - 1) ^ 2) by ring.
  set (inner := (exp eps - exp (- eps)) ^ 2 + _).
  replace (if Rltb 0 inner then Fin inner else Fin 0) with (Fin (Rmax 0 inner)).
  2:{ destruct (Rltb_spec 0 inner); unfold Rmax; destruct (Rle_dec 0 inner); try reflexivity; [|f_equal; lra]. lra. }
  cbn [x_sqrt]. rewrite Rltb_false by (apply Rle_not_lt || idtac; apply Rmax_l). cbn [xsub xadd xneg xdiv]. rewrite Reqb_false by lra. reflexivity.
Qed.
Lemma rsum_nth {A} (f : A -> R) (d : A) l : rsum f l = rsum (fun i => f (nth i l d)) (seq 0 (List.length l)).
Proof.
  induction l as [|a l IH]; [reflexivity|]. cbn [rsum List.length seq nth]. rewrite IH. f_equal.
  rewrite <- seq_shift, rsum_map. reflexivity.
Qed.
Lemma nth_combine {A B} (a : list A) (b : list B) x y i : (i < Nat.min (List.length a) (List.length b))%nat ->
  nth i (combine a b) (x, y) = (nth i a x, nth i b y).
Proof.
  revert b i. induction a as [|u a IH]; intros [|v b] i; cbn [List.length Nat.min]; try lia. destruct i as [|i]; [reflexivity|].
  intros H. cbn [combine nth]. apply IH. lia.
Qed.
Lemma nth_firstn_lt {A} (l : list A) k i d : (i < k)%nat -> nth i (firstn k l) d = nth i l d.
Proof.
  revert k i. induction l as [|a l IH]; intros [|k] i H; try lia; [reflexivity|]. destruct i as [|i]; [reflexivity|]. cbn [firstn nth]. apply IH. lia.
Qed.
Lemma nth_skipn {A} (l : list A) k i d : nth i (skipn k l) d = nth (k + i) l d.
Proof.
  revert k. induction l as [|a l IH]; intros [|k]; try reflexivity; [destruct i; reflexivity|]. cbn [skipn Nat.add nth]. apply IH.
Qed.
Lemma mmd_value {A} (k : A -> A -> R) (d : A) eps s1 s2 failure : 0 < failure <= 1 ->
  let n1 := List.length s1 in let n2 := List.length s2 in let n := Nat.min (n1 / 2) (n2 / 2) in (2 <= n)%nat ->
  let x i := nth i s1 d in let y i := nth i s2 d in
  let h i := k (x i) (x (n1 / 2 + i)%nat) - 2 * k (x i) (y i) + k (y i) (y (n2 / 2 + i)%nat) in
  let average f := rsum f (seq 0 n) / INR n in
  let variance := Rmax 0 (average (fun i => h i ^ 2) - average h ^ 2) in
  let bound tolerance := (sqrt (Rmax 0 ((exp eps - exp (- eps)) ^ 2 + (1 + exp (- eps)) * (average h - tolerance - (exp eps - 1) ^ 2)))
                          - (exp eps - exp (- eps))) / (1 + exp (- eps)) in
  mmd_estimate_with k eps s1 s2 failure
  = Ok (Fin (Rmax (bound (sqrt (8 * ln (1 / failure) / INR n)))
                  (bound (sqrt (2 * variance * ln (2 / failure) / INR n) + 28 * ln (2 / failure) / (3 * (INR n - 1)))))).
Proof.
  intros Hf n1 n2 n Hn x y h average variance bound.
  assert (Hn1 : (n1 / 2 <= n1 - n1 / 2)%nat) by (pose proof (Nat.div_mod n1 2 ltac:(lia)); pose proof (Nat.mod_upper_bound n1 2 ltac:(lia)); lia).
  assert (Hn2 : (n2 / 2 <= n2 - n2 / 2)%nat) by (pose proof (Nat.div_mod n2 2 ltac:(lia)); pose proof (Nat.mod_upper_bound n2 2 ltac:(lia)); lia).
  assert (N1 : n1 <> 1%nat) by (intros E; unfold n in Hn; rewrite E in Hn; cbn in Hn; lia).
  assert (N2 : n2 <> 1%nat) by (intros E; unfold n in Hn; rewrite E in Hn; cbn in Hn; lia).
  assert (HN : 2 <= INR n) by (apply (le_INR 2); exact Hn).
  unfold mmd_estimate_with, split_samples. fold n1 n2. destruct (Nat.eqb_spec n1 1); [contradiction|]. cbn [bind].
  destruct (Nat.eqb_spec n2 1); [contradiction|]. cbn [bind].
  rewrite !firstn_length, !skipn_length. fold n1 n2.
  replace (Nat.min (Nat.min (Nat.min (n1 / 2) n1) (n1 - n1 / 2)) (Nat.min (Nat.min (n2 / 2) n2) (n2 - n2 / 2))) with n by (unfold n; lia).
  set (quads := zip4 (firstn (n1 / 2) s1) (skipn (n1 / 2) s1) (firstn (n2 / 2) s2) (skipn (n2 / 2) s2)).
  assert (Lq : List.length quads = n).
  { unfold quads, zip4. rewrite !combine_length, !firstn_length, !skipn_length. fold n1 n2. unfold n. lia. }
  assert (Q : forall f : R -> R, rsum (fun q => f (pairwise k q)) quads = rsum (fun i => f (h i)) (seq 0 n)).
  { intros f. rewrite (rsum_nth _ (d, d, (d, d))), Lq. apply rsum_ext. intros i Hi. apply in_seq in Hi. f_equal. unfold quads, zip4.
    rewrite nth_combine by (rewrite !combine_length, !firstn_length, !skipn_length; fold n1 n2; unfold n in Hi; lia).
    rewrite !nth_combine by (rewrite !firstn_length, !skipn_length; fold n1 n2; unfold n in Hi; lia).
    rewrite !nth_firstn_lt by (unfold n in Hi; lia). rewrite !nth_skipn. reflexivity. }
  replace (rsum (pairwise k) quads) with (rsum (fun i => h i) (seq 0 n)) by (symmetry; apply (Q (fun z => z))). rewrite (Q (fun z => z ^ 2)).
  unfold py_div at 1. rewrite Reqb_false by lra. cbn [bind].
  change (rsum (fun i => h i) (seq 0 n) / INR n) with (average h).
  change (rsum (fun i => h i ^ 2) (seq 0 n) / INR n) with (average (fun i => h i ^ 2)).
  replace (if Rltb 0 (average (fun i => h i ^ 2) - average h ^ 2) then average (fun i => h i ^ 2) - average h ^ 2 else 0) with variance.
  2:{ unfold variance. match goal with |- Rmax 0 ?v = _ => destruct (Rltb_spec 0 v); unfold Rmax; destruct (Rle_dec 0 v); lra end. }
  assert (HV : 0 <= variance) by apply Rmax_l.
  assert (P1 : 0 < 1 / failure) by (apply Rdiv_lt_0_compat; lra). assert (P2 : 0 < 2 / failure) by (apply Rdiv_lt_0_compat; lra).
  assert (L1 : 0 <= ln (1 / failure)).
  { rewrite <- ln_1 at 1. apply ln_le_mono; [lra|]. apply Rmult_le_reg_r with failure; [lra|]. replace (1 / failure * failure) with 1 by (field; lra). lra. }
  assert (L2 : 0 <= ln (2 / failure)).
  { rewrite <- ln_1 at 1. apply ln_le_mono; [lra|]. apply Rmult_le_reg_r with failure; [lra|]. replace (2 / failure * failure) with 2 by (field; lra). lra. }
  unfold mmd_tolerances, py_div. rewrite !Reqb_false by lra. cbn [bind]. cbn [x_log]. rewrite !Rltb_true by assumption. cbn [xmul].
  cbn [xdiv]. rewrite (Reqb_false (INR n) 0) by lra. rewrite (Reqb_false (3 * (INR n - 1)) 0) by lra. cbn [x_sqrt].
  assert (A0 : 0 <= 8 * ln (1 / failure) / INR n) by (apply Rmult_le_pos; [lra|apply Rlt_le, Rinv_0_lt_compat; lra]).
  assert (A1 : 0 <= 2 * variance * ln (2 / failure) / INR n) by (apply Rmult_le_pos; [apply Rmult_le_pos; lra|apply Rlt_le, Rinv_0_lt_compat; lra]).
  rewrite (Rltb_false (8 * ln (1 / failure) / INR n)) by lra. rewrite (Rltb_false (2 * variance * ln (2 / failure) / INR n)) by lra.
  cbn [xadd]. rewrite !delta_value. fold (bound (sqrt (8 * ln (1 / failure) / INR n))).
  fold (bound (sqrt (2 * variance * ln (2 / failure) / INR n) + 28 * ln (2 / failure) / (3 * (INR n - 1)))).
  unfold py_max. cbn [xltb]. match goal with |- Ok (if Rltb ?a ?b then _ else _) = _ => destruct (Rltb_spec a b); [rewrite Rmax_right by lra|rewrite Rmax_left by lra]; reflexivity end.
Qed.

(** * Examples *)
Definition mmd_ex_config : mmd_config := mkMmdConfig KERNEL_RBF 1 (mkApprox (Some (ln 3)) (Some 0)).
Definition mmd_ex : mmd_tester := mkMmd KERNEL_RBF 1 (ln 3) 0.
Lemma mmd_ex_ok : new_mmd mmd_ex_config = Ok mmd_ex.
Proof.
  assert (H3 : 0 < ln 3) by (rewrite <- ln_1; apply ln_increasing; lra).
  unfold new_mmd, validate_approximate, validate_epsilon. cbn [mmd_ex_config mc_approximate a_epsilon a_delta mc_kernel mc_bandwidth].
  rewrite Reqb_false, Rleb_false by lra. cbn [bind]. rewrite Rltb_false by lra. reflexivity.
Qed.
Definition as_vector (b : bool) : list R := if b then [1] else [0].
Lemma mmd_example n1 n2 :
  mean (law_P rr) n1 (fun s1 => mean (law_Q rr) n2 (fun s2 =>
    indicator (rejects (mmd_reject mmd_ex) (mmd_estimate mmd_ex (map as_vector s1) (map as_vector s2) (1 / 20))))) <= 1 / 10.
Proof.
  replace (1 / 10) with (2 * (1 / 20)) by field.
  apply (mmd_sound rr as_vector mmd_ex_config mmd_ex (ln 3) 0 (1 / 20) n1 n2 mmd_ex_ok eq_refl eq_refl); [cbn; lra|exact rr_valid|split; [exact rr_dp|exact rr_dp']|lra].
Qed.
Definition respond_vector (d o : bool) : list R := as_vector (respond d o).
Lemma respond_vector_satisfies d : pair_satisfies flip (mkProperty None None (Some (mkApprox (Some (ln 3)) (Some 0)))) (respond_vector d) (respond_vector (negb d)).
Proof.
  exists [[1]; [0]], (fun v => if Reqb (nth 0 v 0) (if d then 1 else 0) then 3 / 4 else 1 / 4), (fun v => if Reqb (nth 0 v 0) (if d then 1 else 0) then 1 / 4 else 3 / 4).
  cbn zeta. split; [|split].
  - split; [|cbn [outs prP prQ rsum nth]; destruct d; split; rewrite ?(Reqb_true 1 1), ?(Reqb_true 0 0), ?(Reqb_false 0 1), ?(Reqb_false 1 0) by lra; lra].
    intros a _. cbn [prP prQ]. destruct (Reqb _ _); split; lra.
  - intros f. cbn [outs prP prQ rsum nth flip fst snd respond_vector]. unfold respond_vector, respond, as_vector.
    destruct d; cbn [negb]; rewrite ?(Reqb_true 1 1), ?(Reqb_true 0 0), ?(Reqb_false 0 1), ?(Reqb_false 1 0) by lra; split; ring.
  - split; [|split]; [discriminate|discriminate|]. intros q e dl Hq He Hd. injection Hq as <-. injection He as <-. injection Hd as <-.
    split; intros S; unfold ProbP, ProbQ; cbn [swap outs prP prQ filter]; rewrite exp_ln by lra; destruct (S [1]), (S [0]); cbn [rsum nth]; destruct d;
      rewrite ?(Reqb_true 1 1), ?(Reqb_true 0 0), ?(Reqb_false 0 1), ?(Reqb_false 1 0) by lra; lra.
Qed.
Lemma mmd_audit_example :
  mean flip (Z.to_nat 5 * (200 + 200)) (fun tape =>
    indicator (reports_violation
      (test_privacy (tape_generator opposite) (tape_mechanism respond_vector) (tape_tester (stateless (mmd_estimate mmd_ex)))
         (mmd_reject mmd_ex) (fun a b => xltb b a) (fun s => Ok s) (fun s => Ok s) (mkRunner 5 (1/1000) 200 NONE) (0%nat, tape))))
  <= 5 * (4 * (1/1000)).
Proof.
  apply (mmd_audit flip respond_vector opposite (fun s => Ok s) (fun s => Ok s) (fun a => a) mmd_ex_config mmd_ex (mkRunner 5 (1/1000) 200 NONE) 0%nat mmd_ex_ok).
  - cbn. lra.
  - exact flip_ok.
  - left. split; [reflexivity|intros; reflexivity].
  - intros last g. cbn [opposite]. apply respond_vector_satisfies.
  - cbn. lra.
Qed.

(** * A negative bandwidth *)
Definition coin : exper := {| outcome := bool; outs := [true; false]; prP := fun _ => 1 / 2; prQ := fun _ => 1 / 2 |}.
Lemma coin_valid : valid coin.
Proof. repeat split; cbn; lra. Qed.
Lemma coin_dp eps : 0 <= eps -> dp_both coin eps 0.
Proof.
  intros He. assert (1 <= exp eps) by (apply Rle_trans with (exp 0); [rewrite exp_0; lra|apply exp_le; exact He]).
  split; intros S; unfold ProbP, ProbQ; cbn [swap coin outs prP prQ filter]; destruct (S true), (S false); cbn [rsum]; lra.
Qed.
Definition growing_config : mmd_config := mkMmdConfig KERNEL_LAPLACIAN (- (9)) (mkApprox (Some (ln 2)) (Some 0)).
Definition growing : mmd_tester := mkMmd KERNEL_LAPLACIAN (- (9)) (ln 2) 0.
Lemma growing_ok : new_mmd growing_config = Ok growing.
Proof.
  assert (H3 : 0 < ln 2) by (rewrite <- ln_1; apply ln_increasing; lra).
  unfold new_mmd, validate_approximate, validate_epsilon. cbn [growing_config mc_approximate a_epsilon a_delta mc_kernel mc_bandwidth].
  rewrite Reqb_false, Rleb_false by lra. cbn [bind]. rewrite Rltb_false by lra. reflexivity.
Qed.
Lemma growing_kernel a b : kernel growing (as_vector a) (as_vector b) = if Bool.eqb a b then 1 else exp 9.
Proof.
  unfold kernel. cbn [growing mt_kernel mt_bandwidth]. unfold norm_1, vsub, as_vector.
  destruct a, b; cbn [combine map rsum fst snd Bool.eqb].
  - rewrite Rabs_R0 || (replace (1 - 1) with 0 by ring; rewrite Rabs_R0). rewrite <- exp_0 at 1. f_equal. ring.
  - rewrite (Rabs_right (1 - 0)) by lra. f_equal. ring.
  - rewrite (Rabs_left (0 - 1)) by lra. f_equal. ring.
  - replace (0 - 0) with 0 by ring. rewrite Rabs_R0. rewrite <- exp_0 at 1. f_equal. ring.
Qed.
Lemma xltb_max_l d a b : xltb (Fin d) a = true -> xltb (Fin d) (py_max a b) = true.
Proof.
  unfold py_max. destruct (xltb a b) eqn:E; [|auto]. destruct a as [a| | |], b as [b| | |]; cbn [xltb] in *; try discriminate; auto.
  destruct (Rltb_spec a b); [|discriminate]. destruct (Rltb_spec d a); [|discriminate]. intros _. apply Rltb_true. lra.
Qed.
Lemma growing_rejects a b b' : b = negb a \/ b' = negb a ->
  rejects (mmd_reject growing) (mmd_estimate growing [as_vector a; as_vector b] [as_vector a; as_vector b'] (1 / 20)) = true.
Proof.
  intros Hb. unfold mmd_estimate, mmd_estimate_with, split_samples. cbn [List.length Nat.eqb bind firstn skipn Nat.div Nat.divmod fst snd Nat.min Nat.sub].
  unfold zip4. cbn [combine rsum pairwise INR]. rewrite !growing_kernel. rewrite Bool.eqb_reflx.
  set (h := (if Bool.eqb a b then 1 else exp 9) - 2 * 1 + (if Bool.eqb a b' then 1 else exp 9)).
  assert (He : 10 <= exp 9) by (pose proof (exp_ineq1_le 9); lra).
  assert (Hh : 9 <= h) by (unfold h; destruct Hb as [-> | ->]; destruct a; cbn [Bool.eqb negb]; try destruct b; try destruct b'; cbn [Bool.eqb]; lra).
  unfold py_div at 1. rewrite Reqb_false by lra. cbn [bind]. set (v := if Rltb 0 _ then _ else 0).
  assert (L20 : 0 < ln (1 / (1 / 20)) <= 5).
  { split; [rewrite <- ln_1; apply ln_increasing; lra|].
    assert (L2' : ln 2 <= 1).
    { apply (Rle_trans _ (ln (exp 1))); [|rewrite ln_exp; lra]. apply ln_le_mono; [lra|]. pose proof (exp_ineq1_le 1). lra. }
    apply (Rle_trans _ (ln (2 ^ 5))); [apply ln_le_mono; lra|]. rewrite ln_pow by lra. cbn [INR]. lra. }
  assert (L40 : 0 < ln (2 / (1 / 20))) by (rewrite <- ln_1; apply ln_increasing; lra).
  assert (Hv : 0 <= v) by (unfold v; match goal with |- 0 <= if Rltb 0 ?z then _ else _ => destruct (Rltb_spec 0 z); lra end).
  unfold mmd_tolerances, py_div. rewrite !Reqb_false by lra. cbn [bind x_log INR]. rewrite !Rltb_true by lra. cbn [xmul xdiv].
  rewrite (Reqb_false 1 0) by lra. rewrite (Reqb_true (3 * (1 - 1)) 0) by ring. rewrite Rltb_true by lra. cbn [x_sqrt].
  set (T := sqrt (8 * ln (1 / (1 / 20)) / 1)).
  assert (HT : T <= 7).
  { unfold T. apply Rle_trans with (sqrt (7 * 7)); [apply sqrt_le_1_alt; lra|rewrite sqrt_square; lra]. }
  rewrite (Rltb_false (8 * ln (1 / (1 / 20)) / 1)) by lra.
  rewrite Rltb_false by (assert (0 <= 2 * v * ln (2 / (1 / 20))) by (apply Rmult_le_pos; lra); lra). cbn [xadd].
  cbn [rejects]. unfold mmd_reject, exceeds. cbn [growing mt_delta mt_epsilon]. apply xltb_max_l. rewrite delta_value. cbn [xltb]. apply Rltb_true.
  rewrite exp_Ropp, exp_ln by lra. apply Rdiv_lt_0_compat; [|lra].
  apply Rlt_Rminus. apply Rle_lt_trans with (sqrt ((2 - / 2) ^ 2)); [rewrite <- Rsqr_pow2, sqrt_Rsqr by lra; lra|].
  apply sqrt_lt_1_alt. split; [apply pow2_ge_0|]. eapply Rlt_le_trans; [|apply Rmax_r].
  assert (0 < (1 + / 2) * ((h + 0) / 1 - T - (2 - 1) ^ 2)) by (apply Rmult_lt_0_compat; lra). lra.
Qed.
Lemma mmd_bandwidth_refuted :
  ~ (forall E (m : outcome E -> list R) c t eps delta failure n1 n2,
      new_mmd c = Ok t -> a_epsilon (mc_approximate c) = Some eps -> a_delta (mc_approximate c) = Some delta ->
      valid E -> dp_both E eps delta -> 0 < failure ->
      mean (law_P E) n1 (fun s1 => mean (law_Q E) n2 (fun s2 =>
        indicator (rejects (mmd_reject t) (mmd_estimate t (map m s1) (map m s2) failure)))) <= 2 * failure).
Proof.
  intros H. assert (H2 : 0 < ln 2) by (rewrite <- ln_1; apply ln_increasing; lra).
  specialize (H coin as_vector growing_config growing (ln 2) 0 (1 / 20) 2%nat 2%nat growing_ok eq_refl eq_refl coin_valid (coin_dp (ln 2) ltac:(lra)) ltac:(lra)).
  unfold law_P, law_Q in H. cbn [coin outs prP prQ map mean rsum fst snd outcome] in H.
  set (f := fun a b c d : bool => indicator (rejects (mmd_reject growing) (mmd_estimate growing [as_vector a; as_vector b] [as_vector c; as_vector d] (1 / 20)))) in *.
  assert (P : forall a b c d, 0 <= f a b c d).
  { intros. unfold f. match goal with |- 0 <= indicator ?b => destruct b end; cbn [indicator]; clear; lra. }
  assert (Q : forall a b d, b = negb a \/ d = negb a -> f a b a d = 1) by (intros a b d Hb; unfold f; rewrite (growing_rejects a b d Hb); reflexivity).
  pose proof (Q true false true ltac:(auto)). pose proof (Q true true false ltac:(auto)). pose proof (Q false false true ltac:(auto)).
  pose proof (P true true true true). pose proof (P true true false true). pose proof (P true true false false).
  pose proof (P true false true false). pose proof (P true false false true). pose proof (P true false false false).
  pose proof (P false true true true). pose proof (P false true true false). pose proof (P false true false true). pose proof (P false true false false).
  pose proof (P false false true true). pose proof (P false false true false). pose proof (P false false false false).
  fold (f true true true true) (f true true true false) (f true true false true) (f true true false false)
       (f true false true true) (f true false true false) (f true false false true) (f true false false false)
       (f false true true true) (f false true true false) (f false true false true) (f false true false false)
       (f false false true true) (f false false true false) (f false false false true) (f false false false false) in H.
  lra.
Qed.
