(** How likely the hockey-stick tester is to reject a mechanism that satisfies the guarantee. *)
From Verif Require Import Base Exn XReal TypesAudit SpecDP SpecAudit ModelAudit TypesTesters ModelTesters SpecTesters ProofHoeffding ProofTailBounds ProofTailSums ProofTrained.
Local Arguments Rltb : simpl never.
Local Arguments Rleb : simpl never.
Local Arguments Reqb : simpl never.

Lemma mean_firstn {O} (om : list (O * R)) i n F : distribution om -> (i <= n)%nat ->
  mean om n (fun l => F (firstn i l)) = mean om i F.
Proof.
  intros H Hi. replace n with (i + (n - i))%nat by lia. rewrite mean_app. apply mean_ext. intros l Hl _.
  rewrite (mean_ext om _ _ (fun _ => F l)); [apply (mean_const om H)|]. intros l2 _ _.
  rewrite firstn_app, <- Hl, Nat.sub_diag, firstn_all. cbn [firstn]. rewrite app_nil_r. reflexivity.
Qed.
Lemma mean_skipn {O} (om : list (O * R)) i n F : distribution om -> (i <= n)%nat ->
  mean om n (fun l => F (skipn i l)) = mean om (n - i) F.
Proof.
  intros H Hi. replace n with (i + (n - i))%nat at 1 by lia. rewrite mean_app.
  rewrite (mean_ext om _ _ (fun _ => mean om (n - i) F)); [apply (mean_const om H)|]. intros l Hl _.
  apply mean_ext. intros l2 _ _. rewrite skipn_app, <- Hl, Nat.sub_diag, skipn_all. reflexivity.
Qed.

Lemma cutoff_range eps : 0 < cutoff eps < 1.
Proof.
  unfold cutoff. pose proof (exp_pos eps). split; [apply Rmult_lt_0_compat; [lra|apply Rinv_0_lt_compat; lra]|].
  apply (Rmult_lt_reg_r (exp eps + 1)); [lra|]. unfold Rdiv. rewrite Rmult_assoc, Rinv_l by lra. lra.
Qed.
Definition taken (eps : R) (n : nat) : nat := Z.to_nat (Rfloor (cutoff eps * INR n)).
Lemma taken_spec eps n : INR (taken eps n) <= cutoff eps * INR n < INR (taken eps n) + 1.
Proof.
  unfold taken. pose proof (Rfloor_spec (cutoff eps * INR n)) as F.
  assert (0 <= Rfloor (cutoff eps * INR n))%Z.
  { apply Z.lt_succ_r. apply lt_IZR. rewrite succ_IZR. pose proof (cutoff_range eps). pose proof (pos_INR n). nra. }
  rewrite INR_IZR_INZ, Z2Nat.id by assumption. lra.
Qed.
Lemma taken_le eps n : (taken eps n <= n)%nat.
Proof.
  apply INR_le. pose proof (taken_spec eps n). pose proof (cutoff_range eps). pose proof (pos_INR n). nra.
Qed.

Definition hs_error (failure : R) (n : nat) : R := sqrt (ln (1 / failure) / 2 / INR n).
(** The rounding of the number of samples from the first distribution. *)
Definition rounding (eps : R) (n : nat) : R := cutoff eps * INR n - INR (taken eps n).

Section Hockey.
  Context {O1 O2 A : Type} (om1 : list (O1 * R)) (om2 : list (O2 * R)) (m1 : O1 -> A) (m2 : O2 -> A) (t : hockey_tester).
  Hypothesis H1 : distribution om1.
  Hypothesis H2 : distribution om2.
  Hypothesis Hdp : forall S : A -> bool,
    expect om1 (fun o => indicator (S (m1 o))) <= exp (hs_epsilon t) * expect om2 (fun o => indicator (S (m2 o))) + hs_delta t.
  Hypothesis Hb : hs_bound t = 1.
  Variables (failure : R) (n : nat) (g : A -> R).
  Hypothesis Hf : 0 < failure.
  Local Notation eps := (hs_epsilon t).
  Local Notation delta := (hs_delta t).

  Definition wins1 (a : A) : R := indicator (negb (Rltb 0 (g a))).
  Definition wins2 (a : A) : R := indicator (Rltb 0 (g a)).
  Definition bar : R := (exp eps + delta) / (1 + exp eps).

  Lemma accuracy_value s1 s2 : (0 < n)%nat -> List.length s1 = n -> List.length s2 = n ->
    binary_accuracy g (model_inputs eps s1 s2) = Ok ((rsum wins1 (firstn (taken eps n) s1) + rsum wins2 (skipn (taken eps n) s2)) / INR n).
  Proof.
    intros Hn L1 L2. unfold model_inputs. rewrite L1, L2. fold (taken eps n).
    set (ins := _ ++ _).
    assert (Li : List.length ins = n).
    { unfold ins. rewrite app_length, !map_length, firstn_length, skipn_length, L1, L2. pose proof (taken_le eps n). lia. }
    assert (Hs : rsum (fun i => if Bool.eqb (Rltb 0 (g (fst i))) (snd i) then 1 else 0) ins
      = rsum wins1 (firstn (taken eps n) s1) + rsum wins2 (skipn (taken eps n) s2)).
    { unfold ins. rewrite rsum_app, !rsum_map. f_equal; apply rsum_ext; intros a _; unfold wins1, wins2; cbn [fst snd];
        destruct (Rltb 0 (g a)); reflexivity. }
    destruct ins as [|i ins]; [cbn [List.length] in Li; lia|]. unfold binary_accuracy. rewrite Hs, Li. reflexivity.
  Qed.

  (** When the tester rejects, the classifier was right surprisingly often. *)
  Lemma hockey_rejects s1 s2 : (0 < n)%nat -> List.length s1 = n -> List.length s2 = n ->
    rejects (hockey_reject t) (hockey_compute t g s1 s2 failure) = true ->
    failure <= 1 /\ INR n * (bar + hs_error failure n) < rsum wins1 (firstn (taken eps n) s1) + rsum wins2 (skipn (taken eps n) s2).
  Proof.
    intros Hn L1 L2. assert (HN : 0 < INR n) by (apply lt_0_INR; exact Hn). pose proof (exp_pos eps) as He.
    unfold hockey_compute. rewrite (accuracy_value s1 s2 Hn L1 L2). cbn [bind]. rewrite L1, L2, Nat.min_id, Hb.
    unfold confidence_bound, py_div. rewrite Reqb_false by lra. cbn [bind].
    replace (1 / (1 - (1 - failure))) with (1 / failure) by (f_equal; ring).
    assert (Hq : 0 < 1 / failure) by (apply Rmult_lt_0_compat; [lra|apply Rinv_0_lt_compat; lra]).
    cbn [x_log]. rewrite Rltb_true by exact Hq. cbn [xdiv]. rewrite Reqb_false by lra. cbn [xdiv]. rewrite Reqb_false by lra. cbn [x_sqrt].
    destruct (Rle_lt_dec failure 1) as [H1f|H1f].
    - assert (Hl : 0 <= ln (1 / failure)).
      { rewrite <- ln_1. apply ln_le_mono; [lra|]. apply (Rmult_le_reg_r failure); [lra|]. unfold Rdiv. rewrite Rmult_assoc, Rinv_l by lra. lra. }
      rewrite Rltb_false.
      2:{ apply Rmult_le_pos; [lra|apply Rlt_le, Rinv_0_lt_compat; exact HN]. }
      cbn [xmul xsub xneg xadd rejects hockey_reject exceeds xltb]. unfold hockey_reject, exceeds. cbn [xltb]. fold (hs_error failure n).
      set (S := rsum wins1 _ + rsum wins2 _). intros Hr. split; [exact H1f|].
      match type of Hr with Rltb ?x ?y = true => destruct (Rltb_spec x y) as [K|]; [|discriminate] end.
      assert (bar + hs_error failure n < S / INR n).
      { apply (Rmult_lt_reg_r (1 + exp eps)); [lra|]. rewrite Rmult_plus_distr_r. unfold bar.
        replace ((exp eps + delta) / (1 + exp eps) * (1 + exp eps)) with (exp eps + delta) by (field; lra). lra. }
      replace S with (INR n * (S / INR n)) by (field; lra). apply Rmult_lt_compat_l; [exact HN|assumption].
    - assert (Hl : ln (1 / failure) < 0).
      { rewrite <- ln_1. apply ln_increasing; [exact Hq|]. apply (Rmult_lt_reg_r failure); [lra|]. unfold Rdiv. rewrite Rmult_assoc, Rinv_l by lra. lra. }
      rewrite Rltb_true; [discriminate|].
      apply (Rmult_lt_reg_r (INR n)); [exact HN|]. replace (ln (1 / failure) / 2 / INR n * INR n) with (ln (1 / failure) / 2) by (field; lra). lra.
  Qed.

  Lemma wins1_range a : 0 <= wins1 a <= 1.
  Proof. unfold wins1. destruct (negb _); cbn [indicator]; lra. Qed.
  Lemma wins2_range a : 0 <= wins2 a <= 1.
  Proof. unfold wins2. destruct (Rltb _ _); cbn [indicator]; lra. Qed.

  (** The expected number of right answers. *)
  Lemma expected_wins :
    INR (taken eps n) * expect om1 (fun o => wins1 (m1 o)) + INR (n - taken eps n) * expect om2 (fun o => wins2 (m2 o))
    <= INR n * bar + rounding eps n.
  Proof.
    pose proof (Hdp (fun a => negb (Rltb 0 (g a)))) as D. fold (wins1) in D.
    change (fun o => indicator (negb (Rltb 0 (g (m1 o))))) with (fun o => wins1 (m1 o)) in D.
    change (fun o => indicator (negb (Rltb 0 (g (m2 o))))) with (fun o => wins1 (m2 o)) in D.
    assert (E2 : expect om2 (fun o => wins2 (m2 o)) = 1 - expect om2 (fun o => wins1 (m2 o))).
    { rewrite <- (expect_const om2 H2 1) at 1. rewrite <- expect_minus. apply expect_ext. intros o _. unfold wins1, wins2.
      destruct (Rltb 0 (g (m2 (fst o)))); cbn [negb indicator]; ring. }
    rewrite E2. set (p := expect om1 _) in *. set (q := expect om2 _) in *.
    assert (Hp : 0 <= p <= 1) by (apply (expect_bounds om1 H1); intros; apply wins1_range).
    assert (Hq : 0 <= q <= 1) by (apply (expect_bounds om2 H2); intros; apply wins1_range).
    pose proof (taken_spec eps n) as T. pose proof (exp_pos eps) as He. pose proof (pos_INR n) as HN.
    rewrite minus_INR by apply taken_le. unfold rounding. set (i := INR (taken eps n)) in *.
    assert (Hc : cutoff eps * (1 + exp eps) = 1) by (unfold cutoff; field; lra).
    assert (Hbar : bar = cutoff eps * exp eps + cutoff eps * delta) by (unfold bar, cutoff; field; lra).
    rewrite Hbar. set (c := cutoff eps) in *.
    assert (Hce : c * exp eps = 1 - c) by lra.
    assert (K : c * INR n * p <= c * INR n * (exp eps * q + delta)).
    { apply Rmult_le_compat_l; [|exact D]. apply Rmult_le_pos; [apply Rlt_le, cutoff_range|exact HN]. }
    assert (0 <= (c * INR n - i) * (p + q)) by (apply Rmult_le_pos; lra).
    replace (c * INR n * (exp eps * q + delta)) with (INR n * ((c * exp eps) * q) + INR n * (c * delta)) in K by ring.
    rewrite Hce in K. rewrite Hce. nra.
  Qed.

  Lemma hockey_tail s : (0 < n)%nat -> failure <= 1 -> 0 <= s -> s <= hs_error failure n - rounding eps n / INR n ->
    mean om1 n (fun b1 => mean om2 n (fun b2 => indicator (rejects (hockey_reject t) (hockey_compute t g (map m1 b1) (map m2 b2) failure))))
    <= exp (- (2 * INR n * (s * s))).
  Proof.
    intros Hn Hf1 Hs Hse. assert (HN : 0 < INR n) by (apply lt_0_INR; exact Hn). set (i := taken eps n).
    assert (Hi : (i <= n)%nat) by apply taken_le.
    set (X := INR i * expect om1 (fun o => wins1 (m1 o)) + INR (n - i) * expect om2 (fun o => wins2 (m2 o)) + INR (i + (n - i)) * s).
    apply Rle_trans with (mean om1 n (fun b1 => mean om2 n (fun b2 =>
      indicator (Rleb X (rsum (fun o => wins1 (m1 o)) (firstn i b1) + rsum (fun o => wins2 (m2 o)) (skipn i b2)))))).
    - apply (mean_le om1 H1). intros b1 L1. apply (mean_le om2 H2). intros b2 L2.
      destruct (rejects _ _) eqn:Er; cbn [indicator]; [|destruct (Rleb _ _); cbn [indicator]; lra].
      apply hockey_rejects in Er; [|exact Hn|rewrite map_length; exact L1|rewrite map_length; exact L2]. destruct Er as [_ Er].
      rewrite firstn_map, skipn_map, !rsum_map in Er. fold i in Er.
      rewrite Rleb_true; [cbn [indicator]; lra|].
      pose proof expected_wins as W. fold i in W. unfold X. replace (INR (i + (n - i))) with (INR n) by (f_equal; lia).
      assert (INR n * s <= INR n * (hs_error failure n - rounding eps n / INR n)) by (apply Rmult_le_compat_l; lra).
      replace (INR n * (hs_error failure n - rounding eps n / INR n)) with (INR n * hs_error failure n - rounding eps n) in H by (field; lra). lra.
    - rewrite (mean_firstn om1 i n (fun l1 => mean om2 n (fun b2 => indicator (Rleb X (rsum (fun o => wins1 (m1 o)) l1 + rsum (fun o => wins2 (m2 o)) (skipn i b2))))) H1 Hi).
      rewrite (mean_ext om1 i _ (fun l1 => mean om2 (n - i) (fun l2 => indicator (Rleb X (rsum (fun o => wins1 (m1 o)) l1 + rsum (fun o => wins2 (m2 o)) l2))))).
      2:{ intros l1 _ _. apply (mean_skipn om2 i n (fun l2 => indicator (Rleb X (rsum (fun o => wins1 (m1 o)) l1 + rsum (fun o => wins2 (m2 o)) l2))) H2 Hi). }
      eapply Rle_trans; [apply (hoeffding_two om1 om2 (fun o => wins1 (m1 o)) (fun o => wins2 (m2 o)) 0 1 s i (n - i) H1 H2)|].
      + intros; apply wins1_range.
      + intros; apply wins2_range.
      + lra.
      + exact Hs.
      + lia.
      + replace (INR (i + (n - i))) with (INR n) by (f_equal; lia). apply exp_le. apply Req_le. field.
  Qed.

  Lemma no_samples : n = 0%nat ->
    mean om1 n (fun b1 => mean om2 n (fun b2 => indicator (rejects (hockey_reject t) (hockey_compute t g (map m1 b1) (map m2 b2) failure)))) = 0.
  Proof.
    intros ->. cbn [mean map]. unfold hockey_compute, model_inputs. cbn [List.length].
    rewrite firstn_nil, skipn_nil. reflexivity.
  Qed.
  Lemma large_failure : (0 < n)%nat -> 1 < failure ->
    mean om1 n (fun b1 => mean om2 n (fun b2 => indicator (rejects (hockey_reject t) (hockey_compute t g (map m1 b1) (map m2 b2) failure)))) <= 0.
  Proof.
    intros Hn Hf1. apply Rle_trans with (mean om1 n (fun b1 => mean om2 n (fun _ => 0))).
    - apply (mean_le om1 H1). intros b1 L1. apply (mean_le om2 H2). intros b2 L2.
      destruct (rejects _ _) eqn:Er; cbn [indicator]; [|lra].
      apply hockey_rejects in Er; [|exact Hn|rewrite map_length; exact L1|rewrite map_length; exact L2]. lra.
    - rewrite (mean_ext om1 _ _ (fun _ => 0)) by (intros; apply (mean_const om2 H2)). rewrite (mean_const om1 H1). lra.
  Qed.
  Lemma error_square : (0 < n)%nat -> failure <= 1 -> 0 <= hs_error failure n /\ exp (- (2 * INR n * (hs_error failure n * hs_error failure n))) = failure.
  Proof.
    intros Hn Hf1. assert (HN : 0 < INR n) by (apply lt_0_INR; exact Hn). split; [apply sqrt_pos|].
    assert (Hl : 0 <= ln (1 / failure)).
    { rewrite <- ln_1. apply ln_le_mono; [lra|]. apply (Rmult_le_reg_r failure); [lra|]. unfold Rdiv. rewrite Rmult_assoc, Rinv_l by lra. lra. }
    unfold hs_error. rewrite sqrt_sqrt by (apply Rmult_le_pos; [lra|apply Rlt_le, Rinv_0_lt_compat; exact HN]).
    replace (- (2 * INR n * (ln (1 / failure) / 2 / INR n))) with (- ln (1 / failure)) by (field; lra).
    unfold Rdiv. rewrite Rmult_1_l, ln_Rinv, Ropp_involutive by lra. apply exp_ln. exact Hf.
  Qed.

  Lemma hockey_test : mean om1 n (fun b1 => mean om2 n (fun b2 =>
      indicator (rejects (hockey_reject t) (hockey_compute t g (map m1 b1) (map m2 b2) failure)))) <= failure * exp (4 * hs_error failure n).
  Proof.
    assert (H0 : 0 <= failure * exp (4 * hs_error failure n)) by (apply Rmult_le_pos; [lra|apply Rlt_le, exp_pos]).
    destruct (Nat.eq_dec n 0) as [E|E]; [rewrite (no_samples E); exact H0|].
    assert (Hn : (0 < n)%nat) by lia. assert (HN : 0 < INR n) by (apply lt_0_INR; exact Hn).
    destruct (Rle_lt_dec failure 1) as [Hf1|Hf1]; [|pose proof (large_failure Hn Hf1); lra].
    destruct (error_square Hn Hf1) as [Hp He]. set (e := hs_error failure n) in *.
    pose proof (taken_spec eps n) as T. assert (Hr : 0 <= rounding eps n < 1) by (unfold rounding; lra).
    replace (failure * exp (4 * e)) with (exp (- (2 * INR n * (e * e)) + 4 * e)) by (rewrite exp_plus, He; reflexivity).
    assert (Hrn : 0 <= rounding eps n / INR n) by (apply Rmult_le_pos; [lra|apply Rlt_le, Rinv_0_lt_compat; exact HN]).
    assert (Hrn1 : INR n * (rounding eps n / INR n) = rounding eps n) by (field; lra).
    destruct (Rle_lt_dec (rounding eps n / INR n) e) as [Hc|Hc].
    - eapply Rle_trans; [apply (hockey_tail (e - rounding eps n / INR n)); auto; fold e; lra|]. apply exp_le.
      set (r := rounding eps n / INR n) in *.
      replace (2 * INR n * ((e - r) * (e - r))) with (2 * INR n * (e * e) - 4 * e * (INR n * r) + 2 * r * (INR n * r)) by ring.
      rewrite Hrn1. assert (0 <= r * rounding eps n) by nra. nra.
    - apply Rle_trans with 1.
      + apply mean_bounds with (a := 0) (b := 1); [exact H1|]. intros b1 _. apply mean_bounds; [exact H2|]. intros b2 _.
        destruct (rejects _ _); cbn [indicator]; lra.
      + apply Rle_trans with (exp 0); [rewrite exp_0; lra|]. apply exp_le.
        assert (INR n * e < 1) by nra. assert (0 <= e * (1 - INR n * e)) by nra. nra.
  Qed.
  Lemma hockey_exact : rounding eps n = 0 -> mean om1 n (fun b1 => mean om2 n (fun b2 =>
      indicator (rejects (hockey_reject t) (hockey_compute t g (map m1 b1) (map m2 b2) failure)))) <= failure.
  Proof.
    intros Hr. destruct (Nat.eq_dec n 0) as [E|E]; [rewrite (no_samples E); lra|].
    assert (Hn : (0 < n)%nat) by lia. assert (HN : 0 < INR n) by (apply lt_0_INR; exact Hn).
    destruct (Rle_lt_dec failure 1) as [Hf1|Hf1]; [|pose proof (large_failure Hn Hf1); lra].
    destruct (error_square Hn Hf1) as [Hp He]. apply Rle_trans with (exp (- (2 * INR n * (hs_error failure n * hs_error failure n)))); [|rewrite He; lra].
    apply hockey_tail; auto. rewrite Hr. unfold Rdiv. rewrite Rmult_0_l. lra.
  Qed.
End Hockey.

(** The tester, on samples from the two distributions. *)
Lemma new_hockey_inv c t : new_hockey c = Ok t ->
  a_epsilon (hc_approximate c) = Some (hs_epsilon t) /\ a_delta (hc_approximate c) = Some (hs_delta t)
  /\ 0 < hs_epsilon t /\ 0 <= hs_delta t /\ hs_bound t = 1.
Proof.
  unfold new_hockey, validate_approximate, validate_epsilon. destruct (a_epsilon (hc_approximate c)) as [e|]; cbn [bind]; [|discriminate].
  destruct (Reqb_spec e 0); cbn [bind]; [discriminate|]. destruct (Rleb_spec e 0); cbn [bind]; [discriminate|].
  destruct (a_delta (hc_approximate c)) as [d|]; cbn [bind]; [|discriminate]. destruct (Rltb_spec d 0); cbn [bind]; [discriminate|].
  unfold validate_training. cbn [learning_rate training_epochs batch_size output_bound].
  destruct (not_positive _); [discriminate|]. destruct (not_positive _); [discriminate|]. destruct (not_positive _); [discriminate|].
  rewrite Reqb_false, Rleb_false by lra. cbn [orb bind]. intros K. injection K as <-. cbn [hs_epsilon hs_delta hs_bound]. repeat split; lra.
Qed.
Lemma indicator_filter {B} (S : B -> bool) (p : B -> R) l : rsum (fun a => p a * indicator (S a)) l = rsum p (filter S l).
Proof.
  induction l as [|a l IH]; [reflexivity|]. cbn [rsum filter]. rewrite IH. destruct (S a); cbn [indicator rsum]; ring.
Qed.
Lemma dp_expect E eps delta : dp E eps delta -> forall S : outcome E -> bool,
  expect (law_P E) (fun o => indicator (S o)) <= exp eps * expect (law_Q E) (fun o => indicator (S o)) + delta.
Proof. intros H S. rewrite expect_P, expect_Q, !indicator_filter. apply H. Qed.

Lemma hockey_sound E c t W (keras : list (outcome E * bool) -> W -> res ((outcome E -> R) * W)) eps delta failure n w :
  new_hockey c = Ok t -> a_epsilon (hc_approximate c) = Some eps -> a_delta (hc_approximate c) = Some delta ->
  valid E -> dp E eps delta -> 0 < failure ->
  mean (law_P E) n (fun s1 => mean (law_Q E) n (fun s2 =>
    indicator (rejects (fun vw => hockey_reject t (fst vw)) (hockey_estimate keras t s1 s2 failure w))))
  <= failure * exp (4 * sqrt (ln (1 / failure) / 2 / INR (n - n / 2))).
Proof.
  intros Hc Ee Ed Hv Hdp Hf. apply new_hockey_inv in Hc. destruct Hc as (Ee' & Ed' & _ & _ & Hb).
  rewrite Ee in Ee'. injection Ee' as ->. rewrite Ed in Ed'. injection Ed' as ->.
  assert (HP := law_P_ok E Hv). assert (HQ := law_Q_ok E Hv).
  rewrite (mean_ext (law_P E) n _ (fun s1 => mean (law_Q E) n (fun s2 =>
    indicator (rejects (fun vw => hockey_reject t (fst vw)) (hockey_estimate keras t (map (fun o => o) s1) (map (fun o => o) s2) failure w))))).
  2:{ intros s1 _ _. apply mean_ext. intros s2 _ _. rewrite !map_id. reflexivity. }
  unfold hockey_estimate. apply (trained (law_P E) (law_Q E) (fun o => o) (fun o => o) (hockey_fit keras t) (hockey_compute t) (hockey_reject t) HP HQ).
  - intros g. apply (hockey_test (law_P E) (law_Q E) (fun o => o) (fun o => o) t HP HQ (dp_expect E _ _ Hdp) Hb failure (n - n / 2) g Hf).
  - apply Rmult_le_pos; [lra|apply Rlt_le, exp_pos].
Qed.
Lemma hockey_sound_exact E c t W (keras : list (outcome E * bool) -> W -> res ((outcome E -> R) * W)) eps delta failure n k w :
  new_hockey c = Ok t -> a_epsilon (hc_approximate c) = Some eps -> a_delta (hc_approximate c) = Some delta ->
  valid E -> dp E eps delta -> 0 < failure -> INR (n - n / 2) = INR k * (1 + exp eps) ->
  mean (law_P E) n (fun s1 => mean (law_Q E) n (fun s2 =>
    indicator (rejects (fun vw => hockey_reject t (fst vw)) (hockey_estimate keras t s1 s2 failure w))))
  <= failure.
Proof.
  intros Hc Ee Ed Hv Hdp Hf Hk. apply new_hockey_inv in Hc. destruct Hc as (Ee' & Ed' & _ & _ & Hb).
  rewrite Ee in Ee'. injection Ee' as ->. rewrite Ed in Ed'. injection Ed' as ->.
  assert (HP := law_P_ok E Hv). assert (HQ := law_Q_ok E Hv).
  rewrite (mean_ext (law_P E) n _ (fun s1 => mean (law_Q E) n (fun s2 =>
    indicator (rejects (fun vw => hockey_reject t (fst vw)) (hockey_estimate keras t (map (fun o => o) s1) (map (fun o => o) s2) failure w))))).
  2:{ intros s1 _ _. apply mean_ext. intros s2 _ _. rewrite !map_id. reflexivity. }
  unfold hockey_estimate. apply (trained (law_P E) (law_Q E) (fun o => o) (fun o => o) (hockey_fit keras t) (hockey_compute t) (hockey_reject t) HP HQ); [|lra].
  intros g. apply (hockey_exact (law_P E) (law_Q E) (fun o => o) (fun o => o) t HP HQ (dp_expect E _ _ Hdp) Hb failure (n - n / 2) g Hf).
  unfold rounding. pose proof (taken_spec (hs_epsilon t) (n - n / 2)) as T.
  pose proof (exp_pos (hs_epsilon t)).
  assert (Ec : cutoff (hs_epsilon t) * INR (n - n / 2) = INR k) by (rewrite Hk; unfold cutoff; field; lra).
  rewrite Ec in *. destruct T as [T1 T2]. apply INR_le in T1. rewrite <- S_INR in T2. apply INR_lt in T2.
  replace (taken (hs_epsilon t) (n - n / 2)) with k by lia. ring.
Qed.
