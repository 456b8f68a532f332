(** When the tester of the maximum mean discrepancy rejects. *)
From Coq Require Import FunctionalExtensionality.
From Verif Require Import Base Exn XReal TypesAudit SpecDP SpecAudit SpecRenyi ModelAudit TypesTesters ModelTesters SpecTesters
  ProofMmdTail ProofMmd ProofMmdRun.
Local Arguments Rltb : simpl never.
Local Arguments Rleb : simpl never.
Local Arguments Reqb : simpl never.

Lemma bound_iff eps delta avg t : 0 <= eps -> 0 <= delta ->
  (delta < (sqrt (Rmax 0 ((exp eps - exp (- eps)) ^ 2 + (1 + exp (- eps)) * (avg - t - (exp eps - 1) ^ 2))) - (exp eps - exp (- eps))) / (1 + exp (- eps))
   <-> mmd_limit eps delta + t < avg).
Proof.
  intros He Hd. pose proof (exp_pos (- eps)). assert (K : exp (- eps) <= exp eps) by (apply exp_le; lra). unfold mmd_limit.
  set (c := exp eps - 1). set (a := exp eps - exp (- eps)) in *. set (b := 1 + exp (- eps)) in *.
  assert (Hb : 1 <= b) by (unfold b; lra). assert (Ha : 0 <= a) by (unfold a; lra). assert (Hab : 0 <= b * delta + a) by nra.
  set (inner := a ^ 2 + b * (avg - t - c ^ 2)). set (S := sqrt (Rmax 0 inner)).
  assert (HS : S * S = Rmax 0 inner) by (apply sqrt_sqrt, Rmax_l). assert (S0 : 0 <= S) by apply sqrt_pos.
  split; intros H1.
  - assert (Q : b * delta + a < S).
    { apply Rmult_lt_compat_l with (r := b) in H1; [|lra]. replace (b * ((S - a) / b)) with (S - a) in H1 by (field; lra). lra. }
    assert (Q2 : (b * delta + a) * (b * delta + a) < S * S) by (apply Rmult_le_0_lt_compat; lra). rewrite HS in Q2.
    assert (Q3 : (b * delta + a) * (b * delta + a) < inner).
    { revert Q2. unfold Rmax. destruct (Rle_dec 0 inner); [auto|]. intros Q2. pose proof (Rle_0_sqr (b * delta + a)) as Z. unfold Rsqr in Z. lra. }
    apply Rmult_lt_reg_l with b; [lra|]. unfold inner in Q3. nra.
  - assert (Q3 : (b * delta + a) * (b * delta + a) < inner).
    { unfold inner. assert (0 < b * (avg - (c ^ 2 + 2 * a * delta + b * delta ^ 2 + t))) by (apply Rmult_lt_0_compat; lra). nra. }
    assert (Q : b * delta + a < S).
    { apply Rsqr_incrst_0; [unfold Rsqr; rewrite HS; eapply Rlt_le_trans; [exact Q3|apply Rmax_r]|exact Hab|exact S0]. }
    apply Rmult_lt_reg_l with b; [lra|]. replace (b * ((S - a) / b)) with (S - a) by (field; lra). lra.
Qed.

Lemma decision_kernel c t eps delta (s1 s2 : list (list R)) failure :
  new_mmd c = Ok t -> a_epsilon (mc_approximate c) = Some eps -> a_delta (mc_approximate c) = Some delta -> 0 < failure <= 1 ->
  let n1 := List.length s1 in let n2 := List.length s2 in let n := Nat.min (n1 / 2) (n2 / 2) in (2 <= n)%nat ->
  let x i := nth i s1 [] in let y i := nth i s2 [] in let k := kernel t in
  let h i := k (x i) (x (n1 / 2 + i)%nat) - 2 * k (x i) (y i) + k (y i) (y (n2 / 2 + i)%nat) in
  let average f := rsum f (seq 0 n) / INR n in
  let variance := Rmax 0 (average (fun i => h i ^ 2) - average h ^ 2) in
  let tolerance := Rmin (sqrt (8 * ln (1 / failure) / INR n))
                        (sqrt (2 * variance * ln (2 / failure) / INR n) + 28 * ln (2 / failure) / (3 * (INR n - 1))) in
  rejects (mmd_reject t) (mmd_estimate t s1 s2 failure) = true
  <-> (exp eps - 1) ^ 2 + 2 * (exp eps - exp (- eps)) * delta + (1 + exp (- eps)) * delta ^ 2 < average h - tolerance.
Proof.
  intros Hc Ee Ed Hf n1 n2 n Hn x y k h average variance tolerance.
  apply new_mmd_inv in Hc. destruct Hc as (Ee' & Ed' & He & Hd & Eb). rewrite Ee in Ee'. rewrite Ed in Ed'. injection Ee' as ->. injection Ed' as ->.
  unfold mmd_estimate. rewrite (mmd_value (kernel t) [] (mt_epsilon t) s1 s2 failure Hf Hn). cbn [rejects]. unfold mmd_reject, exceeds. cbn [xltb].
  fold (mmd_limit (mt_epsilon t) (mt_delta t)).
  pose proof (bound_iff (mt_epsilon t) (mt_delta t) (average h) (sqrt (8 * ln (1 / failure) / INR n)) ltac:(lra) Hd) as B0.
  pose proof (bound_iff (mt_epsilon t) (mt_delta t) (average h) (sqrt (2 * variance * ln (2 / failure) / INR n) + 28 * ln (2 / failure) / (3 * (INR n - 1))) ltac:(lra) Hd) as B1.
  match goal with |- Rltb _ (Rmax ?u ?v) = true <-> _ => change (mt_delta t < u <-> mmd_limit (mt_epsilon t) (mt_delta t) + sqrt (8 * ln (1 / failure) / INR n) < average h) in B0;
    change (mt_delta t < v <-> mmd_limit (mt_epsilon t) (mt_delta t) + (sqrt (2 * variance * ln (2 / failure) / INR n) + 28 * ln (2 / failure) / (3 * (INR n - 1))) < average h) in B1;
    generalize dependent v; generalize dependent u end.
  intros u B0 v B1. unfold tolerance. clearbody average variance. revert B0 B1. generalize (sqrt (8 * ln (1 / failure) / INR n)) (sqrt (2 * variance * ln (2 / failure) / INR n) + 28 * ln (2 / failure) / (3 * (INR n - 1))).
  intros p q B0 B1. split.
  - destruct (Rltb_spec (mt_delta t) (Rmax u v)) as [E|]; [|discriminate]. intros _.
    unfold Rmax in E. destruct (Rle_dec u v); [apply B1 in E|apply B0 in E]; pose proof (Rmin_l p q); pose proof (Rmin_r p q); lra.
  - intros E. apply Rltb_true. unfold Rmin in E. destruct (Rle_dec p q).
    + eapply Rlt_le_trans; [apply B0; lra|apply Rmax_l].
    + eapply Rlt_le_trans; [apply B1; lra|apply Rmax_r].
Qed.
Lemma sum_squares v : norm_2 v ^ 2 = rsum (fun x => x ^ 2) v.
Proof.
  unfold norm_2. replace (sqrt (rsum (fun x => x * x) v) ^ 2) with (sqrt (rsum (fun x => x * x) v) * sqrt (rsum (fun x => x * x) v)) by ring.
  rewrite sqrt_sqrt; [apply rsum_ext; intros; ring|]. apply rsum_nonneg. intros x _. apply Rle_0_sqr.
Qed.
Lemma rsum_map_pairs {A} (f : R -> R) (g : A -> R) l : rsum f (map g l) = rsum (fun a => f (g a)) l.
Proof. induction l as [|a l IH]; [reflexivity|]. cbn [map]. unfold rsum in *. cbn. rewrite IH. reflexivity. Qed.
Lemma kernel_is c t : new_mmd c = Ok t -> kernel t = fun u v =>
  exp (- mc_bandwidth c * match mc_kernel c with
    | KERNEL_LAPLACIAN => rsum (fun p => Rabs (fst p - snd p)) (combine u v)
    | _ => rsum (fun p => (fst p - snd p) ^ 2) (combine u v) end).
Proof.
  intros H. apply functional_extensionality. intros u. apply functional_extensionality. intros v.
  unfold new_mmd in H. destruct (validate_approximate (mc_approximate c)) as [[e d]|]; cbn [bind] in H; [|discriminate].
  destruct (mc_kernel c) eqn:K; try discriminate; injection H as <-; unfold kernel; cbn [mt_kernel mt_bandwidth].
  - rewrite sum_squares. unfold vsub. rewrite rsum_map_pairs. reflexivity.
  - unfold norm_1, vsub. rewrite rsum_map_pairs. reflexivity.
Qed.
Lemma mmd_decision c t eps delta (s1 s2 : list (list R)) failure :
  new_mmd c = Ok t -> a_epsilon (mc_approximate c) = Some eps -> a_delta (mc_approximate c) = Some delta -> 0 < failure <= 1 ->
  let n1 := List.length s1 in let n2 := List.length s2 in let n := Nat.min (n1 / 2) (n2 / 2) in (2 <= n)%nat ->
  let x i := nth i s1 [] in let y i := nth i s2 [] in
  let k u v := exp (- mc_bandwidth c * match mc_kernel c with
    | KERNEL_LAPLACIAN => rsum (fun p => Rabs (fst p - snd p)) (combine u v)
    | _ => rsum (fun p => (fst p - snd p) ^ 2) (combine u v) end) in
  let h i := k (x i) (x (n1 / 2 + i)%nat) - 2 * k (x i) (y i) + k (y i) (y (n2 / 2 + i)%nat) in
  let average f := rsum f (seq 0 n) / INR n in
  let variance := Rmax 0 (average (fun i => h i ^ 2) - average h ^ 2) in
  let tolerance := Rmin (sqrt (8 * ln (1 / failure) / INR n))
                        (sqrt (2 * variance * ln (2 / failure) / INR n) + 28 * ln (2 / failure) / (3 * (INR n - 1))) in
  rejects (mmd_reject t) (mmd_estimate t s1 s2 failure) = true
  <-> (exp eps - 1) ^ 2 + 2 * (exp eps - exp (- eps)) * delta + (1 + exp (- eps)) * delta ^ 2 < average h - tolerance.
Proof. intros Hc. pose proof (decision_kernel c t eps delta s1 s2 failure Hc) as H. rewrite (kernel_is c t Hc) in H. exact H. Qed.

(** A large epsilon. *)
Lemma mmd_powerless c t eps (s1 s2 : list (list R)) failure :
  new_mmd c = Ok t -> a_epsilon (mc_approximate c) = Some eps -> 0 <= mc_bandwidth c -> 0 < failure < 1 ->
  ln (1 + sqrt 2) <= eps -> rejects (mmd_reject t) (mmd_estimate t s1 s2 failure) = false.
Proof.
  intros Hc Ee Hb Hf Hl. apply new_mmd_inv in Hc. destruct Hc as (Ee' & Ed' & He & Hd & Eb). rewrite Ee in Ee'. injection Ee' as ->.
  destruct (rejects _ _) eqn:Er; [|reflexivity]. exfalso. revert Er. unfold mmd_estimate, mmd_estimate_with.
  destruct (split_samples s1) as [[xa xb]|]; cbn [bind]; [|discriminate]. destruct (split_samples s2) as [[ya yb]|]; cbn [bind]; [|discriminate].
  set (quads := zip4 xa xb ya yb). replace (Nat.min _ _) with (List.length quads) by (unfold quads, zip4; rewrite !combine_length; reflexivity).
  intros Er. apply (mmd_on_rejects (pairwise (kernel t)) (mt_epsilon t) (mt_delta t) quads failure ltac:(lra) Hd Hf) in Er.
  destruct Er as (Hn & Er). assert (HN : 1 <= INR (List.length quads)) by (apply (le_INR 1); lia).
  assert (Hh : forall q, - 2 <= pairwise (kernel t) q <= 2).
  { intros [[a b] [a' b']]. unfold pairwise. pose proof (kernel_range t a b ltac:(lra)). pose proof (kernel_range t a a' ltac:(lra)). pose proof (kernel_range t a' b' ltac:(lra)). lra. }
  destruct (sample_range (pairwise (kernel t)) quads Hn Hh) as (Q & V & _).
  assert (Hs2 : 0 <= sqrt 2) by apply sqrt_pos. assert (Es2 : sqrt 2 * sqrt 2 = 2) by (apply sqrt_sqrt; lra).
  assert (Hx : 1 + sqrt 2 <= exp (mt_epsilon t)) by (rewrite <- (exp_ln (1 + sqrt 2)) by lra; apply exp_le; exact Hl).
  assert (HM : 2 <= mmd_limit (mt_epsilon t) (mt_delta t)).
  { unfold mmd_limit. assert (2 <= (exp (mt_epsilon t) - 1) ^ 2) by nra. pose proof (exp_pos (- mt_epsilon t)).
    assert (exp (- mt_epsilon t) <= exp (mt_epsilon t)) by (apply exp_le; lra).
    assert (0 <= 2 * (exp (mt_epsilon t) - exp (- mt_epsilon t)) * mt_delta t) by (apply Rmult_le_pos; lra).
    assert (0 <= (1 + exp (- mt_epsilon t)) * mt_delta t ^ 2) by (apply Rmult_le_pos; [lra|apply pow2_ge_0]). lra. }
  assert (L2 : 0 <= ln (2 / failure)).
  { rewrite <- ln_1 at 1. apply ln_le_mono; [lra|]. apply Rmult_le_reg_r with failure; [lra|]. replace (2 / failure * failure) with 2 by (field; lra). lra. }
  destruct Er as [Er|Er].
  - pose proof (sqrt_pos (8 * ln (1 / failure) / INR (List.length quads))). lra.
  - unfold tolerance in Er. pose proof (sqrt_pos (2 * sample_variance (pairwise (kernel t)) quads * (ln (2 / failure) / INR (List.length quads)))).
    assert (0 <= ln (2 / failure) / INR (List.length quads)) by (apply Rmult_le_pos; [exact L2|apply Rlt_le, Rinv_0_lt_compat; lra]). lra.
Qed.

(** Two constants, told apart. *)
Definition tight_config : mmd_config := mkMmdConfig KERNEL_RBF 1 (mkApprox (Some (ln (11 / 10))) (Some 0)).
Definition tight : mmd_tester := mkMmd KERNEL_RBF 1 (ln (11 / 10)) 0.
Lemma tight_ok : new_mmd tight_config = Ok tight.
Proof.
  assert (H3 : 0 < ln (11 / 10)) by (rewrite <- ln_1; apply ln_increasing; lra).
  unfold new_mmd, validate_approximate, validate_epsilon. cbn [tight_config mc_approximate a_epsilon a_delta mc_kernel mc_bandwidth].
  rewrite Reqb_false, Rleb_false by lra. cbn [bind]. rewrite Rltb_false by lra. reflexivity.
Qed.
Lemma tight_example : rejects (mmd_reject tight) (mmd_estimate tight (repeat [0] 400) (repeat [5] 400) (1 / 20)) = true.
Proof.
  apply (decision_kernel tight_config tight (ln (11 / 10)) 0 (repeat [0] 400) (repeat [5] 400) (1 / 20) tight_ok eq_refl eq_refl ltac:(lra)).
  { rewrite !repeat_length. vm_compute. lia. }
  rewrite !repeat_length. replace (Nat.min (400 / 2) (400 / 2)) with 200%nat by reflexivity. replace (400 / 2)%nat with 200%nat by reflexivity.
  cbv zeta. rewrite exp_Ropp, exp_ln by lra.
  assert (K1 : kernel tight [0] [0] = 1).
  { unfold kernel. cbn [tight mt_kernel mt_bandwidth]. unfold norm_2, vsub. cbn [combine map rsum fst snd].
    replace ((0 - 0) * (0 - 0) + 0) with 0 by ring. rewrite sqrt_0. replace (- (1) * 0 ^ 2) with 0 by ring. apply exp_0. }
  assert (K2 : kernel tight [5] [5] = 1).
  { unfold kernel. cbn [tight mt_kernel mt_bandwidth]. unfold norm_2, vsub. cbn [combine map rsum fst snd].
    replace ((5 - 5) * (5 - 5) + 0) with 0 by ring. rewrite sqrt_0. replace (- (1) * 0 ^ 2) with 0 by ring. apply exp_0. }
  assert (K3 : kernel tight [0] [5] <= 1 / 26).
  { unfold kernel. cbn [tight mt_kernel mt_bandwidth]. unfold norm_2, vsub. cbn [combine map rsum fst snd].
    replace ((0 - 5) * (0 - 5) + 0) with (5 * 5) by ring. rewrite sqrt_square by lra. replace (- (1) * 5 ^ 2) with (- (25)) by ring. rewrite exp_Ropp.
    pose proof (exp_ineq1_le 25) as X. replace (1 / 26) with (/ 26) by field. apply Rinv_le_contravar; lra. }
  set (kk := kernel tight [0] [5]) in *.
  set (h := fun i : nat => _).
  assert (Hh : rsum h (seq 0 200) = 200 * (2 - 2 * kk)).
  { rewrite (rsum_ext h (fun _ => 2 - 2 * kk)).
    - rewrite rsum_const, seq_length. replace (INR 200) with 200 by (rewrite INR_IZR_INZ; reflexivity). ring.
    - intros i Hi. apply in_seq in Hi. unfold h.
      assert (N0 : forall j, (j < 400)%nat -> nth j (repeat [0] 400) [] = [0]) by (intros j Hj; rewrite (nth_indep _ [] [0]) by (rewrite repeat_length; exact Hj); apply nth_repeat).
      assert (N5 : forall j, (j < 400)%nat -> nth j (repeat [5] 400) [] = [5]) by (intros j Hj; rewrite (nth_indep _ [] [5]) by (rewrite repeat_length; exact Hj); apply nth_repeat).
      rewrite !N0, !N5 by lia. rewrite K1, K2. fold kk. ring. }
  rewrite Hh. replace (INR 200) with 200 by (rewrite INR_IZR_INZ; reflexivity).
  replace (200 * (2 - 2 * kk) / 200) with (2 - 2 * kk) by field.
  eapply Rlt_le_trans; [|apply Rplus_le_compat_l, Ropp_le_contravar, Rmin_l].
  assert (L20 : 0 < ln (1 / (1 / 20)) <= 5).
  { split; [rewrite <- ln_1; apply ln_increasing; lra|].
    assert (L2' : ln 2 <= 1).
    { apply (Rle_trans _ (ln (exp 1))); [|rewrite ln_exp; lra]. apply ln_le_mono; [lra|]. pose proof (exp_ineq1_le 1). lra. }
    apply (Rle_trans _ (ln (2 ^ 5))); [apply ln_le_mono; lra|]. rewrite ln_pow by lra. cbn [INR]. lra. }
  assert (T : sqrt (8 * ln (1 / (1 / 20)) / 200) <= 1 / 2).
  { apply Rle_trans with (sqrt (1 / 2 * (1 / 2))); [apply sqrt_le_1_alt; lra|rewrite sqrt_square; lra]. }
  lra.
Qed.
