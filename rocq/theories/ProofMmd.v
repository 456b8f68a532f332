(** The tester of the maximum mean discrepancy. *)
From Verif Require Import Base Exn XReal TypesAudit SpecDP SpecAudit SpecRenyi ModelAudit TypesTesters ModelTesters SpecTesters
  ProofHoeffding ProofTailBounds ProofTailSums ProofTrained ProofHockey ProofMmdTail.

(** * The kernels *)
Lemma rsum_vsub (f : R -> R) : (forall x, f (- x) = f x) -> forall x y, rsum f (vsub x y) = rsum f (vsub y x).
Proof.
  intros Hf. unfold vsub. induction x as [|a x IH]; intros [|b y]; try reflexivity. cbn [combine map rsum fst snd]. rewrite IH.
  f_equal. rewrite <- Hf. f_equal. ring.
Qed.
Lemma kernel_sym t x y : kernel t x y = kernel t y x.
Proof.
  unfold kernel, norm_2, norm_1. rewrite (rsum_vsub (fun x => x * x)) by (intros; ring). rewrite (rsum_vsub Rabs) by apply Rabs_Ropp. reflexivity.
Qed.
Lemma kernel_range t x y : 0 <= mt_bandwidth t -> 0 <= kernel t x y <= 1.
Proof.
  intros Hb. assert (K : forall z, 0 <= z -> 0 <= exp (- mt_bandwidth t * z) <= 1).
  { intros z Hz. split; [apply Rlt_le, exp_pos|]. apply Rle_trans with (exp 0); [apply exp_le; nra|rewrite exp_0; lra]. }
  unfold kernel. destruct (mt_kernel t); apply K; try (apply pow2_ge_0).
  unfold norm_1. apply rsum_nonneg. intros; apply Rabs_pos.
Qed.

(** * The discrepancy of a private mechanism *)
Definition mmd_limit (eps delta : R) : R :=
  (exp eps - 1) ^ 2 + 2 * (exp eps - exp (- eps)) * delta + (1 + exp (- eps)) * delta ^ 2.
Lemma limit_nonneg eps delta : 0 <= eps -> 0 <= delta -> 0 <= mmd_limit eps delta.
Proof.
  intros He Hd. assert (K : exp (- eps) <= exp eps) by (apply exp_le; lra). pose proof (exp_pos (- eps)). unfold mmd_limit.
  pose proof (pow2_ge_0 (exp eps - 1)). assert (0 <= 2 * (exp eps - exp (- eps)) * delta) by (apply Rmult_le_pos; lra).
  assert (0 <= (1 + exp (- eps)) * delta ^ 2) by (apply Rmult_le_pos; [lra|apply pow2_ge_0]). lra.
Qed.
Lemma limit_covers eps delta tau : 0 <= eps -> 0 <= delta -> 0 <= tau -> tau * (exp eps + 1) <= exp eps - 1 + 2 * delta ->
  2 * (tau * tau) <= mmd_limit eps delta.
Proof.
  intros He Hd Ht H. unfold mmd_limit. rewrite exp_Ropp. set (y := exp eps) in *.
  assert (Hy : 1 <= y) by (unfold y; apply Rle_trans with (exp 0); [rewrite exp_0; lra|apply exp_le; exact He]).
  assert (Ht2 : tau * (y + 1) * (tau * (y + 1)) <= (y - 1 + 2 * delta) * (y - 1 + 2 * delta)).
  { apply Rmult_le_compat; try assumption; apply Rmult_le_pos; lra. }
  assert (Hc : 8 * y <= (y + 1) * (y + 1) * (y + 1)) by nra.
  apply Rmult_le_reg_r with ((y + 1) * (y + 1) * y); [nra|].
  replace (2 * (tau * tau) * ((y + 1) * (y + 1) * y)) with (2 * y * (tau * (y + 1) * (tau * (y + 1)))) by ring.
  apply Rle_trans with (2 * y * ((y - 1 + 2 * delta) * (y - 1 + 2 * delta))); [apply Rmult_le_compat_l; lra|].
  replace (((y - 1) ^ 2 + 2 * (y - / y) * delta + (1 + / y) * delta ^ 2) * ((y + 1) * (y + 1) * y))
    with ((y - 1) * (y - 1) * ((y + 1) * (y + 1) * y) + 2 * (y - 1) * delta * ((y + 1) * (y + 1) * (y + 1)) + delta * delta * ((y + 1) * (y + 1) * (y + 1))) by (field; lra).
  assert (A1 : 2 * y * ((y - 1) * (y - 1)) <= (y - 1) * (y - 1) * ((y + 1) * (y + 1) * y)).
  { assert (0 <= (y - 1) * (y - 1) * y) by (apply Rmult_le_pos; [apply Rle_0_sqr|lra]). nra. }
  assert (A2 : 8 * y * ((y - 1) * delta) <= 2 * ((y - 1) * delta) * ((y + 1) * (y + 1) * (y + 1))).
  { assert (0 <= (y - 1) * delta) by (apply Rmult_le_pos; lra). nra. }
  assert (A3 : 8 * y * (delta * delta) <= (delta * delta) * ((y + 1) * (y + 1) * (y + 1))).
  { pose proof (Rle_0_sqr delta) as S. unfold Rsqr in S. nra. }
  nra.
Qed.

(** Means of bounded functions under two distributions that a private mechanism has. *)
Definition close {O1 O2 A} (om1 : list (O1 * R)) (om2 : list (O2 * R)) (m1 : O1 -> A) (m2 : O2 -> A) (tau : R) : Prop :=
  forall f lo hi, (forall a, lo <= f a <= hi) -> expect om1 (fun o => f (m1 o)) - expect om2 (fun o => f (m2 o)) <= tau * (hi - lo).
Lemma variation E eps delta : valid E -> dp E eps delta -> dp (swap E) eps delta ->
  exists tau, 0 <= tau /\ tau * (exp eps + 1) <= exp eps - 1 + 2 * delta /\
    forall f lo hi, (forall a : outcome E, lo <= f a <= hi) ->
      rsum (fun a => prP E a * f a) (outs E) - rsum (fun a => prQ E a * f a) (outs E) <= tau * (hi - lo).
Proof.
  intros (Hpos & SP & SQ) D1 D2. set (S := fun a => Rltb (prQ E a) (prP E a)).
  assert (N1 : ProbP E S + ProbP E (fun a => negb (S a)) = 1).
  { unfold ProbP. rewrite !rsum_filter, <- rsum_plus, <- SP. apply rsum_ext. intros a _. destruct (S a); cbn [negb]; ring. }
  assert (N2 : ProbQ E S + ProbQ E (fun a => negb (S a)) = 1).
  { unfold ProbQ. rewrite !rsum_filter, <- rsum_plus, <- SQ. apply rsum_ext. intros a _. destruct (S a); cbn [negb]; ring. }
  assert (K : ProbP E S - ProbQ E S = rsum (fun a => if S a then prP E a - prQ E a else 0) (outs E)).
  { unfold ProbP, ProbQ. rewrite !rsum_filter, <- rsum_minus. apply rsum_ext. intros a _. destruct (S a); ring. }
  exists (ProbP E S - ProbQ E S). split; [|split].
  - rewrite K. apply rsum_nonneg. intros a _. unfold S. destruct (Rltb_spec (prQ E a) (prP E a)); lra.
  - specialize (D1 S). specialize (D2 (fun a => negb (S a))). change (ProbQ E (fun a => negb (S a)) <= exp eps * ProbP E (fun a => negb (S a)) + delta) in D2.
    replace (ProbQ E (fun a => negb (S a))) with (1 - ProbQ E S) in D2 by lra. replace (ProbP E (fun a => negb (S a))) with (1 - ProbP E S) in D2 by lra. lra.
  - intros f lo hi Hf. rewrite K, <- rsum_minus, <- rsum_scal_r.
    assert (Z : rsum (fun a => lo * (prP E a - prQ E a)) (outs E) = 0) by (rewrite rsum_scal, rsum_minus, SP, SQ; ring).
    apply Rle_trans with (rsum (fun a => (if S a then prP E a - prQ E a else 0) * (hi - lo) + lo * (prP E a - prQ E a)) (outs E)).
    + apply rsum_le. intros a _. specialize (Hf a). unfold S. destruct (Rltb_spec (prQ E a) (prP E a)); nra.
    + rewrite rsum_plus, Z. lra.
Qed.
Lemma expect_fst {O1 O2} (om1 : list (O1 * R)) (om2 : list (O2 * R)) f : distribution om2 ->
  expect (pairs om1 om2) (fun q => f (fst q)) = expect om1 f.
Proof. intros H2. rewrite expect_pairs. apply expect_ext. intros o _. cbn [fst]. apply (expect_const om2 H2). Qed.
Lemma expect_snd {O1 O2} (om1 : list (O1 * R)) (om2 : list (O2 * R)) f : distribution om1 ->
  expect (pairs om1 om2) (fun q => f (snd q)) = expect om2 f.
Proof. intros H1. rewrite expect_pairs. cbn [snd]. apply (expect_const om1 H1). Qed.
Lemma expect_swap {O1 O2} (om1 : list (O1 * R)) (om2 : list (O2 * R)) (f : O1 -> O2 -> R) :
  expect om1 (fun a => expect om2 (fun b => f a b)) = expect om2 (fun b => expect om1 (fun a => f a b)).
Proof.
  unfold expect. rewrite (rsum_ext _ (fun a => rsum (fun b => snd a * (snd b * f (fst a) (fst b))) om2)) by (intros; rewrite rsum_scal; reflexivity).
  rewrite rsum_swap. apply rsum_ext. intros b _. rewrite <- rsum_scal. apply rsum_ext. intros a _. ring.
Qed.
Lemma discrepancy {O1 O2 A} (om1 : list (O1 * R)) (om2 : list (O2 * R)) (m1 : O1 -> A) (m2 : O2 -> A) (k : A -> A -> R) tau :
  distribution om1 -> distribution om2 -> close om1 om2 m1 m2 tau -> close om2 om1 m2 m1 tau ->
  (forall x y, k x y = k y x) -> (forall x y, 0 <= k x y <= 1) ->
  expect (pairs (pairs om1 om1) (pairs om2 om2)) (fun q => pairwise k ((m1 (fst (fst q)), m1 (snd (fst q))), (m2 (fst (snd q)), m2 (snd (snd q))))) <= 2 * (tau * tau).
Proof.
  intros H1 H2 C1 C2 Ks Kr. set (phi := fun a => expect om1 (fun o => k a (m1 o)) - expect om2 (fun o => k a (m2 o))).
  assert (Hphi : forall a, - tau <= phi a <= tau).
  { intros a. unfold phi. pose proof (C1 (k a) 0 1 (Kr a)). pose proof (C2 (k a) 0 1 (Kr a)). lra. }
  pose proof (C1 phi (- tau) tau Hphi) as K.
  assert (E : expect om1 (fun o => phi (m1 o)) - expect om2 (fun o => phi (m2 o))
    = expect om1 (fun a => expect om1 (fun b => k (m1 a) (m1 b))) - 2 * expect om1 (fun a => expect om2 (fun c => k (m1 a) (m2 c)))
      + expect om2 (fun c => expect om2 (fun d => k (m2 c) (m2 d)))).
  { unfold phi. rewrite !(expect_minus om1), !(expect_minus om2).
    rewrite (expect_swap om2 om1 (fun c a => k (m2 c) (m1 a))).
    rewrite (expect_ext om1 (fun a => expect om2 (fun c => k (m2 c) (m1 a))) (fun a => expect om2 (fun c => k (m1 a) (m2 c)))) by (intros; apply expect_ext; intros; apply Ks).
    ring. }
  set (om := pairs (pairs om1 om1) (pairs om2 om2)).
  assert (H11 := pairs_ok om1 om1 H1 H1). assert (H22 := pairs_ok om2 om2 H2 H2).
  rewrite (expect_ext om _ (fun q => (fun p => k (m1 (fst p)) (m1 (snd p))) (fst q) - 2 * k (m1 (fst (fst q))) (m2 (fst (snd q))) + (fun p => k (m2 (fst p)) (m2 (snd p))) (snd q))) by reflexivity.
  rewrite (expect_plus om), (expect_minus om), (expect_scal om). unfold om.
  rewrite (expect_fst (pairs om1 om1) (pairs om2 om2) (fun p => k (m1 (fst p)) (m1 (snd p))) H22).
  rewrite (expect_snd (pairs om1 om1) (pairs om2 om2) (fun p => k (m2 (fst p)) (m2 (snd p))) H11).
  rewrite !expect_pairs. cbn [fst snd].
  rewrite (expect_ext om1 (fun a => expect om1 (fun b => expect (pairs om2 om2) (fun b0 => k (m1 a) (m2 (fst b0))))) (fun a => expect om2 (fun c => k (m1 a) (m2 c)))).
  2:{ intros o _. rewrite (expect_const om1 H1). apply (expect_fst om2 om2 (fun c => k (m1 (fst o)) (m2 c)) H2). }
  rewrite <- E. lra.
Qed.

(** * Independent quadruples *)
Lemma combine_map2 {A B C D} (f : A -> C) (g : B -> D) : forall a b,
  combine (map f a) (map g b) = map (fun p => (f (fst p), g (snd p))) (combine a b).
Proof. induction a as [|x a IH]; intros [|y b]; try reflexivity. cbn [combine map fst snd]. rewrite IH. reflexivity. Qed.
Lemma combine_cut {A B} (a : list A) (b : list B) k : k = Nat.min (List.length a) (List.length b) ->
  combine a b = combine (firstn k a) (firstn k b).
Proof. intros Hk. rewrite <- combine_firstn. symmetry. apply firstn_all2. rewrite combine_length. lia. Qed.
Lemma mean_half {O} (om : list (O * R)) n k G : distribution om -> (k <= n / 2)%nat ->
  mean om n (fun s => G (firstn k (combine (firstn (n / 2) s) (skipn (n / 2) s)))) = mean (pairs om om) k G.
Proof.
  intros H Hk. assert (Hn : (n / 2 <= n - n / 2)%nat) by (pose proof (Nat.div_mod n 2 ltac:(lia)); pose proof (Nat.mod_upper_bound n 2 ltac:(lia)); lia).
  rewrite (mean_halves om n).
  rewrite (mean_ext om (n / 2) _ (fun a => (fun a => mean om k (fun b => G (combine a b))) (firstn k a))).
  - rewrite (mean_firstn om k (n / 2) (fun a => mean om k (fun b => G (combine a b))) H Hk). apply (mean_pairs om om k H).
  - intros a La _. rewrite <- (mean_firstn om k (n - n / 2) (fun b => G (combine (firstn k a) b)) H ltac:(lia)).
    apply mean_ext. intros b Lb _. rewrite firstn_app, skipn_app, La, Nat.sub_diag. cbn [firstn skipn]. rewrite app_nil_r.
    rewrite (firstn_all2 (n := n / 2) a) by lia. rewrite (skipn_all2 (n := n / 2) a) by lia. cbn [app]. rewrite combine_firstn. reflexivity.
Qed.
Lemma mean_quads {O1 O2} (om1 : list (O1 * R)) (om2 : list (O2 * R)) n1 n2 G : distribution om1 -> distribution om2 ->
  mean om1 n1 (fun s1 => mean om2 n2 (fun s2 =>
    G (combine (combine (firstn (n1 / 2) s1) (skipn (n1 / 2) s1)) (combine (firstn (n2 / 2) s2) (skipn (n2 / 2) s2)))))
  = mean (pairs (pairs om1 om1) (pairs om2 om2)) (Nat.min (n1 / 2) (n2 / 2)) G.
Proof.
  intros H1 H2. set (k := Nat.min (n1 / 2) (n2 / 2)).
  assert (Hn1 : (n1 / 2 <= n1 - n1 / 2)%nat) by (pose proof (Nat.div_mod n1 2 ltac:(lia)); pose proof (Nat.mod_upper_bound n1 2 ltac:(lia)); lia).
  assert (Hn2 : (n2 / 2 <= n2 - n2 / 2)%nat) by (pose proof (Nat.div_mod n2 2 ltac:(lia)); pose proof (Nat.mod_upper_bound n2 2 ltac:(lia)); lia).
  rewrite <- (mean_pairs (pairs om1 om1) (pairs om2 om2) k (pairs_ok om1 om1 H1 H1)).
  rewrite <- (mean_half om1 n1 k _ H1 ltac:(unfold k; lia)). apply mean_ext. intros s1 L1 _.
  rewrite <- (mean_half om2 n2 k _ H2 ltac:(unfold k; lia)). apply mean_ext. intros s2 L2 _.
  rewrite (combine_cut (combine (firstn (n1 / 2) s1) (skipn (n1 / 2) s1)) (combine (firstn (n2 / 2) s2) (skipn (n2 / 2) s2)) k); [reflexivity|].
  rewrite !combine_length, !firstn_length, !skipn_length, L1, L2. unfold k. lia.
Qed.

(** * The estimate *)
Lemma delta_inv eps delta mean t : 0 <= eps -> 0 <= delta -> xltb (Fin delta) (mmd_delta eps mean (Fin t)) = true ->
  mmd_limit eps delta + t < mean.
Proof.
  intros He Hd. unfold mmd_delta, py_max. cbn [xadd xsub xneg xmul xltb]. pose proof (exp_pos (- eps)).
  assert (K : exp (- eps) <= exp eps) by (apply exp_le; lra).
  set (inner := (exp eps - exp (- eps)) ^ 2 + _). unfold mmd_limit.
  assert (Hi : inner = (exp eps - exp (- eps)) ^ 2 + (1 + exp (- eps)) * (mean + - t + - (exp eps - 1) ^ 2)) by reflexivity.
  set (a := exp eps - exp (- eps)) in *. set (b := 1 + exp (- eps)) in *. assert (Hb : 1 <= b) by (unfold b; lra). assert (Ha : 0 <= a) by (unfold a; lra).
  assert (Hab : 0 <= b * delta + a) by nra.
  destruct (Rltb_spec 0 inner) as [P|P].
  - cbn [x_sqrt]. rewrite Rltb_false by lra. cbn [xsub xadd xneg xdiv]. rewrite Reqb_false by lra. cbn [xltb].
    destruct (Rltb_spec delta ((sqrt inner + - a) / b)) as [Q|Q]; [|discriminate]. intros _.
    assert (Q' : b * delta + a < sqrt inner).
    { apply Rmult_lt_compat_l with (r := b) in Q; [|lra]. replace (b * ((sqrt inner + - a) / b)) with (sqrt inner + - a) in Q by (field; lra). lra. }
    assert (Q2 : (b * delta + a) * (b * delta + a) < inner).
    { rewrite <- (sqrt_sqrt inner) by lra. apply Rmult_le_0_lt_compat; lra. }
    apply Rmult_lt_reg_l with b; [lra|]. rewrite Hi in Q2. nra.
  - cbn [x_sqrt]. rewrite Rltb_false by lra. rewrite sqrt_0. cbn [xsub xadd xneg xdiv]. rewrite Reqb_false by lra. cbn [xltb].
    destruct (Rltb_spec delta ((0 + - a) / b)) as [Q|Q]; [|discriminate]. exfalso.
    assert ((0 + - a) / b <= 0); [|lra]. apply Rmult_le_reg_r with b; [lra|]. replace ((0 + - a) / b * b) with (- a) by (field; lra). lra.
Qed.
Lemma delta_inf eps delta mean : 0 <= eps -> 0 <= delta -> xltb (Fin delta) (mmd_delta eps mean PInf) = false.
Proof.
  intros He Hd. pose proof (exp_pos (- eps)). assert (K : exp (- eps) <= exp eps) by (apply exp_le; lra).
  unfold mmd_delta, py_max. cbn [xadd xsub xneg xmul inf_times xltb]. unfold inf_times. rewrite Rltb_true by lra. cbn [xneg xadd xltb x_sqrt].
  rewrite Rltb_false by lra. rewrite sqrt_0. cbn [xsub xadd xneg xdiv]. rewrite Reqb_false by lra. cbn [xltb]. apply Rltb_false.
  set (b := 1 + exp (- eps)). assert (0 < b) by (unfold b; lra).
  assert ((0 + - (exp eps - exp (- eps))) / b <= 0); [|lra]. apply Rmult_le_reg_r with b; [lra|].
  replace ((0 + - (exp eps - exp (- eps))) / b * b) with (- (exp eps - exp (- eps))) by (field; lra). lra.
Qed.
Lemma xltb_max d a b : xltb (Fin d) (py_max a b) = true -> xltb (Fin d) a = true \/ xltb (Fin d) b = true.
Proof. unfold py_max. destruct (xltb a b); auto. Qed.

(** The estimate as a function of the quadruples. *)
Definition mmd_on {Q} (h : Q -> R) (eps : R) (quads : list Q) (n : nat) (failure : R) : res xr :=
  let? mean := py_div (rsum h quads) (INR n) in
  let v := rsum (fun q => h q ^ 2) quads / INR n - mean ^ 2 in
  let variance := if Rltb 0 v then v else 0 in
  let? (tol0, tol1) := mmd_tolerances n variance failure in
  Ok (py_max (mmd_delta eps mean tol0) (mmd_delta eps mean tol1)).
Lemma mmd_on_rejects {Q} (h : Q -> R) eps delta quads failure : 0 <= eps -> 0 <= delta -> 0 < failure < 1 ->
  let n := List.length quads in
  rejects (exceeds delta) (mmd_on h eps quads n failure) = true ->
  (0 < n)%nat /\ (mmd_limit eps delta + sqrt (8 * ln (1 / failure) / INR n) < rsum h quads / INR n
            \/ mmd_limit eps delta + tolerance (INR n) (ln (2 / failure)) (sample_variance h quads) < rsum h quads / INR n).
Proof.
  intros He Hd Hf n. unfold mmd_on. destruct (Nat.eq_dec n 0) as [N0|N0].
  { rewrite N0. cbn [INR]. unfold py_div. rewrite Reqb_true by reflexivity. discriminate. }
  assert (Hn : (0 < n)%nat) by lia. assert (HN : 1 <= INR n) by (apply (le_INR 1); lia). clear N0.
  unfold py_div at 1. rewrite Reqb_false by lra. cbn [bind]. set (mu := rsum h quads / INR n).
  set (v := rsum (fun q => h q ^ 2) quads / INR n - mu ^ 2).
  assert (Ev : (if Rltb 0 v then v else 0) = sample_variance h quads).
  { unfold sample_variance. fold n. fold mu. rewrite (rsum_ext (fun o => h o * h o) (fun q => h q ^ 2)) by (intros; ring).
    replace (rsum (fun q => h q ^ 2) quads / INR n - mu * mu) with v by (unfold v; ring).
    destruct (Rltb_spec 0 v); unfold Rmax; destruct (Rle_dec 0 v); lra. }
  rewrite Ev. set (V := sample_variance h quads). assert (HV : 0 <= V) by (unfold V, sample_variance; apply Rmax_l).
  assert (L1 : 0 < ln (1 / failure)).
  { rewrite <- ln_1 at 1. apply ln_increasing; [lra|]. apply Rmult_lt_reg_r with failure; [lra|]. replace (1 / failure * failure) with 1 by (field; lra). lra. }
  assert (P1 : 0 < 1 / failure) by (apply Rdiv_lt_0_compat; lra). assert (P2 : 0 < 2 / failure) by (apply Rdiv_lt_0_compat; lra).
  assert (L2 : 0 < ln (2 / failure)).
  { apply Rlt_trans with (ln (1 / failure)); [exact L1|]. apply ln_increasing; [exact P1|]. replace (2 / failure) with (1 / failure + 1 / failure) by (field; lra). lra. }
  unfold mmd_tolerances, py_div. rewrite !Reqb_false by lra. cbn [bind]. cbn [x_log]. rewrite !Rltb_true by assumption. cbn [xmul].
  set (l1 := ln (1 / failure)) in *. set (l := ln (2 / failure)) in *.
  cbn [xdiv]. rewrite (Reqb_false (INR n) 0) by lra. cbn [x_sqrt].
  assert (A0 : 0 <= 8 * l1 / INR n) by (apply Rmult_le_pos; [lra|apply Rlt_le, Rinv_0_lt_compat; lra]).
  assert (A1 : 0 <= 2 * V * l / INR n) by (apply Rmult_le_pos; [nra|apply Rlt_le, Rinv_0_lt_compat; lra]).
  rewrite (Rltb_false (8 * l1 / INR n)) by lra. rewrite (Rltb_false (2 * V * l / INR n)) by lra.
  cbn [rejects]. intros K. split; [exact Hn|]. unfold exceeds in K. apply xltb_max in K. destruct K as [K|K].
  - left. apply (delta_inv _ _ _ _ He Hd K).
  - right. destruct (Nat.eq_dec n 1) as [E1|N1].
    + exfalso. revert K. rewrite E1. cbn [INR]. rewrite Reqb_true by ring. rewrite Rltb_true by lra. cbn [xadd]. rewrite (delta_inf _ _ _ He Hd). discriminate.
    + assert (HN2 : 2 <= INR n) by (apply (le_INR 2); lia). rewrite Reqb_false in K by lra. cbn [xadd] in K.
      apply (delta_inv _ _ _ _ He Hd) in K. eapply Rle_lt_trans; [|exact K]. unfold tolerance. apply Rplus_le_compat_l.
      replace (2 * V * (l / INR n)) with (2 * V * l / INR n) by (field; lra). apply Rplus_le_compat_l.
      replace (28 / 3 * (l / INR n)) with (28 * l / 3 * / INR n) by (field; lra). replace (28 * l / (3 * (INR n - 1))) with (28 * l / 3 * / (INR n - 1)) by (field; lra).
      apply Rmult_le_compat_l; [lra|]. apply Rinv_le_contravar; lra.
Qed.

Lemma mmd_test {O1 O2 A} (om1 : list (O1 * R)) (om2 : list (O2 * R)) (m1 : O1 -> A) (m2 : O2 -> A) k eps delta tau failure n1 n2 :
  distribution om1 -> distribution om2 -> close om1 om2 m1 m2 tau -> close om2 om1 m2 m1 tau ->
  (forall x y, k x y = k y x) -> (forall x y, 0 <= k x y <= 1) ->
  0 <= eps -> 0 <= delta -> 0 <= tau -> tau * (exp eps + 1) <= exp eps - 1 + 2 * delta -> 0 < failure ->
  mean om1 n1 (fun s1 => mean om2 n2 (fun s2 =>
    indicator (rejects (exceeds delta) (mmd_estimate_with k eps (map m1 s1) (map m2 s2) failure)))) <= 2 * failure.
Proof.
  intros H1 H2 C1 C2 Ks Kr He Hd Ht Htau Hf.
  assert (H11 := pairs_ok om1 om1 H1 H1). assert (H22 := pairs_ok om2 om2 H2 H2). assert (HQ := pairs_ok _ _ H11 H22).
  assert (Triv : forall f : list O1 -> list O2 -> bool, 1 <= 2 * failure -> mean om1 n1 (fun s1 => mean om2 n2 (fun s2 => indicator (f s1 s2))) <= 2 * failure).
  { intros f F. apply Rle_trans with 1; [|exact F]. apply (mean_bounds om1 H1 n1 _ 0 1). intros s1 _. apply (mean_bounds om2 H2). intros s2 _. destruct (f s1 s2); cbn [indicator]; lra. }
  destruct (Rle_or_lt 1 (2 * failure)) as [F|F]; [apply Triv; exact F|]. clear Triv.
  set (q4 := fun q : (O1 * O1) * (O2 * O2) => ((m1 (fst (fst q)), m1 (snd (fst q))), (m2 (fst (snd q)), m2 (snd (snd q))))).
  set (h := fun q => pairwise k (q4 q)).
  assert (Hh : forall q, - 2 <= h q <= 2).
  { intros q. unfold h, q4, pairwise. pose proof (Kr (m1 (fst (fst q))) (m1 (snd (fst q)))). pose proof (Kr (m1 (fst (fst q))) (m2 (fst (snd q)))). pose proof (Kr (m2 (fst (snd q))) (m2 (snd (snd q)))). lra. }
  set (M := mmd_limit eps delta). assert (HM : 0 <= M) by (apply limit_nonneg; assumption).
  set (om := pairs (pairs om1 om1) (pairs om2 om2)) in *.
  assert (Hmu : expect om h <= M).
  { eapply Rle_trans; [apply (discrepancy om1 om2 m1 m2 k tau H1 H2 C1 C2 Ks Kr)|apply limit_covers; assumption]. }
  set (G := fun l => indicator (rejects (exceeds delta) (mmd_on h eps l (List.length l) failure))).
  apply Rle_trans with (mean om (Nat.min (n1 / 2) (n2 / 2)) G).
  - unfold om. rewrite <- (mean_quads om1 om2 n1 n2 G H1 H2). apply (mean_le om1 H1). intros s1 L1. apply (mean_le om2 H2). intros s2 L2.
    assert (G0 : forall l, 0 <= G l) by (intros l; unfold G; destruct (rejects _ _); cbn [indicator]; lra).
    unfold mmd_estimate_with, split_samples. rewrite !map_length, L1, L2.
    destruct (Nat.eqb_spec n1 1) as [E1|N1]; [cbn [bind rejects indicator]; apply G0|].
    cbn [bind]. destruct (Nat.eqb_spec n2 1) as [E2|N2]; [cbn [bind rejects indicator]; apply G0|]. cbn [bind].
    apply Req_le. unfold G. do 2 f_equal. unfold mmd_on, zip4. rewrite !firstn_map, !skipn_map, !combine_map2, !rsum_map.
    rewrite !map_length, !firstn_length, !skipn_length, !combine_length, !firstn_length, !skipn_length, L1, L2. reflexivity.
  - set (n := Nat.min (n1 / 2) (n2 / 2)). destruct (Nat.eq_dec n 0) as [E0|N0].
    { rewrite E0. cbn [mean]. unfold G, mmd_on. cbn [List.length INR]. unfold py_div. rewrite Reqb_true by reflexivity. cbn [bind rejects indicator]. lra. }
    assert (Hn : (0 < n)%nat) by lia.
    assert (E1 : exp (- ln (1 / failure)) = failure).
    { rewrite exp_Ropp, exp_ln by (apply Rdiv_lt_0_compat; lra). field. lra. }
    assert (E2 : 2 * exp (- ln (2 / failure)) = failure).
    { rewrite exp_Ropp, exp_ln by (apply Rdiv_lt_0_compat; lra). field. lra. }
    assert (L1 : 0 <= ln (1 / failure)).
    { rewrite <- ln_1 at 1. apply Rlt_le, ln_increasing; [lra|]. apply Rmult_lt_reg_r with failure; [lra|]. replace (1 / failure * failure) with 1 by (field; lra). lra. }
    assert (L2 : 0 <= ln (2 / failure)).
    { rewrite <- ln_1 at 1. apply Rlt_le, ln_increasing; [lra|]. apply Rmult_lt_reg_r with failure; [lra|]. replace (2 / failure * failure) with 2 by (field; lra). lra. }
    pose proof (hoeffding_tail om HQ h M (ln (1 / failure)) n Hh Hmu L1 Hn) as T1. rewrite E1 in T1.
    pose proof (empirical om HQ h M (ln (2 / failure)) n Hh HM Hmu L2 Hn) as T2. rewrite E2 in T2.
    apply Rle_trans with (mean om n (fun l => indicator (Rltb (M + sqrt (8 * ln (1 / failure) / INR n)) (rsum h l / INR n))
      + indicator (Rltb (M + tolerance (INR n) (ln (2 / failure)) (sample_variance h l)) (rsum h l / INR n)))).
    + apply (mean_le om HQ). intros l Hl. unfold G.
      destruct (rejects (exceeds delta) (mmd_on h eps l (List.length l) failure)) eqn:Er; cbn [indicator].
      2:{ destruct (Rltb _ _), (Rltb _ _); cbn [indicator]; lra. }
      apply (mmd_on_rejects h eps delta l failure He Hd ltac:(lra)) in Er. rewrite Hl in Er. fold M in Er. destruct Er as (_ & [Er|Er]).
      * rewrite (Rltb_true (M + sqrt (8 * ln (1 / failure) / INR n)) (rsum h l / INR n)) by exact Er. destruct (Rltb _ _); cbn [indicator]; lra.
      * rewrite (Rltb_true (M + tolerance (INR n) (ln (2 / failure)) (sample_variance h l)) (rsum h l / INR n)) by exact Er. destruct (Rltb _ _); cbn [indicator]; lra.
    + rewrite mean_plus. lra.
Qed.

Lemma new_mmd_inv c t : new_mmd c = Ok t ->
  a_epsilon (mc_approximate c) = Some (mt_epsilon t) /\ a_delta (mc_approximate c) = Some (mt_delta t)
  /\ 0 < mt_epsilon t /\ 0 <= mt_delta t /\ mt_bandwidth t = mc_bandwidth c.
Proof.
  unfold new_mmd, validate_approximate, validate_epsilon. destruct (a_epsilon (mc_approximate c)) as [e|]; cbn [bind]; [|discriminate].
  destruct (Reqb_spec e 0); cbn [bind]; [discriminate|]. destruct (Rleb_spec e 0); cbn [bind]; [discriminate|].
  destruct (a_delta (mc_approximate c)) as [d|]; cbn [bind]; [|discriminate]. destruct (Rltb_spec d 0); cbn [bind]; [discriminate|].
  destruct (mc_kernel c); try discriminate; intros K; injection K as <-; cbn [mt_epsilon mt_delta mt_bandwidth]; repeat split; lra.
Qed.

Lemma mmd_sound E (m : outcome E -> list R) c t eps delta failure n1 n2 :
  new_mmd c = Ok t -> a_epsilon (mc_approximate c) = Some eps -> a_delta (mc_approximate c) = Some delta -> 0 <= mc_bandwidth c ->
  valid E -> dp_both E eps delta -> 0 < failure ->
  mean (law_P E) n1 (fun s1 => mean (law_Q E) n2 (fun s2 =>
    indicator (rejects (mmd_reject t) (mmd_estimate t (map m s1) (map m s2) failure)))) <= 2 * failure.
Proof.
  intros Hc Ee Ed Hb Hv [D1 D2] Hf. apply new_mmd_inv in Hc. destruct Hc as (Ee' & Ed' & He & Hd & Eb).
  rewrite Ee in Ee'. rewrite Ed in Ed'. injection Ee' as ->. injection Ed' as ->.
  destruct (variation E _ _ Hv D1 D2) as (tau & T0 & T1 & T2).
  assert (V : valid (swap E)) by (destruct Hv as (A & B & C); repeat split; [apply (proj2 (A a H))|apply (proj1 (A a H))|exact C|exact B]).
  destruct (variation (swap E) _ _ V D2 D1) as (tau' & T0' & T1' & T2').
  assert (Hx : 0 < exp (mt_epsilon t)) by apply exp_pos.
  unfold mmd_reject, mmd_estimate.
  apply (mmd_test (law_P E) (law_Q E) m m (kernel t) (mt_epsilon t) (mt_delta t) (Rmax tau tau')); try assumption; try lra.
  - apply law_P_ok; exact Hv.
  - apply law_Q_ok; exact Hv.
  - intros f lo hi Hf'. rewrite expect_P, expect_Q. eapply Rle_trans; [apply (T2 (fun a => f (m a)) lo hi); intros; apply Hf'|].
    apply Rmult_le_compat_r; [pose proof (Hf' []); lra|apply Rmax_l].
  - intros f lo hi Hf'. rewrite expect_P, expect_Q. eapply Rle_trans; [apply (T2' (fun a => f (m a)) lo hi); intros; apply Hf'|].
    apply Rmult_le_compat_r; [pose proof (Hf' []); lra|apply Rmax_r].
  - apply kernel_sym.
  - intros x y. apply kernel_range. rewrite Eb. exact Hb.
  - apply Rle_trans with tau; [exact T0|apply Rmax_l].
  - unfold Rmax. destruct (Rle_dec tau tau'); assumption.
Qed.
