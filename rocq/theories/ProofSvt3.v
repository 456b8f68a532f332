(** SVT3 reports noisy values; it is not private. *)
From Verif Require Import Base Exn TypesSvt ModelSvt SpecDP SpecMech SpecSvt SpecRun ProofShape ProofSvt ProofRun ProofSvtDp ProofSvtTight.
Local Open Scope R_scope.

Lemma sparse_last a t qs q x :
  sparse_vector (shown SVT3) (S a) t (qs ++ [q]) = repeat BelowThreshold (List.length qs) ++ [QueryValue x] <->
  Forall (fun y => y < t) qs /\ t <= q /\ x = q.
Proof.
  induction qs as [|y qs IH]; cbn [app sparse_vector List.length repeat].
  - destruct (Rleb_spec t q) as [L|L].
    + cbn [shown sparse_vector]. split.
      * intros [= <-]. split; [constructor | split; [lra | reflexivity]].
      * intros (_ & _ & ->). destruct a; reflexivity.
    + split; [discriminate|]. intros (_ & N & _). lra.
  - destruct (Rleb_spec t y) as [L|L].
    + cbn [shown]. split; [discriminate|]. intros (F & _). inversion F; subst. lra.
    + split.
      * intros [= H]. apply IH in H. destruct H as (F & H). split; [constructor; [lra | exact F] | exact H].
      * intros (F & H). inversion F; subst. f_equal. apply IH. split; assumption.
Qed.

Lemma svt3_events tn qn c data out vs v bt bq qs u :
  svt_call tn qn SVT3 c data 1 = Ok [out] -> (0 < num_queries c)%nat -> (0 < max_answered_queries c)%Z ->
  query_values c data = Ok (vs ++ [v]) -> laplace_scale (threshold_scale SVT3 c) = Ok bt ->
  query_scale SVT3 c = Some qs -> laplace_scale qs = Ok bq ->
  ((exists x, out = repeat BelowThreshold (List.length vs) ++ [QueryValue x] /\ x <= u) <->
   last_at_most (threshold c + bt * tn 0%nat) vs v (fun j => bq * qn 0%nat j) u).
Proof.
  intros H Hn Ha Ev Et Eq Es.
  destruct (call_row tn qn SVT3 c data out (vs ++ [v]) bt bq H Hn Ev Et ltac:(rewrite Eq; exact Es)) as [L R].
  rewrite app_length in L. cbn [List.length] in L. replace (num_queries c) with (List.length vs + 1)%nat in R by exact L.
  rewrite seq_app, map_app in R. cbn [seq map Nat.add] in R.
  destruct (Z.to_nat (max_answered_queries c)) as [|a] eqn:EA; [lia|].
  rewrite (map_ext_in _ (fun j => nth j vs 0 + bq * qn 0%nat j)) in R
    by (intros j Hj; apply in_seq in Hj; rewrite app_nth1 by lia; reflexivity).
  rewrite (app_nth2 vs [v]) in R by lia. rewrite Nat.sub_diag in R. cbn [nth] in R.
  set (ys := map (fun j => nth j vs 0 + bq * qn 0%nat j) (seq 0 (List.length vs))) in *.
  assert (LY : List.length ys = List.length vs) by (unfold ys; rewrite map_length, seq_length; reflexivity).
  assert (FY : forall t, Forall (fun y => y < t) ys <-> forall j, (j < List.length vs)%nat -> nth j vs 0 + bq * qn 0%nat j < t).
  { intros t. rewrite Forall_forall. unfold ys. split.
    - intros F j Hj. apply F. apply in_map_iff. exists j. split; [reflexivity | apply in_seq; lia].
    - intros F y Hy. apply in_map_iff in Hy. destruct Hy as (j & <- & Hj). apply F. apply in_seq in Hj. lia. }
  unfold last_at_most. set (q := v + bq * qn 0%nat (List.length vs)) in *. rewrite R, <- LY. split.
  - intros (x & E & U). apply sparse_last in E. destruct E as (F & T & ->). split; [rewrite LY; apply FY, F | split; assumption].
  - intros (F & T & U). exists q. split; [|exact U]. apply sparse_last. rewrite LY in F. split; [apply FY, F | split; [exact T | reflexivity]].
Qed.

Lemma below_repeat F t x n : below_chances F t (repeat x n) = F (t - x) ^ n.
Proof. induction n as [|n IH]; cbn [repeat below_chances pow]; [reflexivity | rewrite IH; reflexivity]. Qed.
Lemma law_left b x : 0 < b -> x <= 0 -> laplace_law b x = exp (x / b) / 2.
Proof.
  intros Hb H. unfold laplace_law. destruct (Rltb_spec x 0) as [L|L]; [reflexivity|]. replace x with 0 by lra.
  replace (- 0 / b) with 0 by (field; lra). replace (0 / b) with 0 by (field; lra). rewrite exp_0. lra.
Qed.

Lemma cont_ext f g x : (forall y, f y = g y) -> continuity_pt f x -> continuity_pt g x.
Proof.
  intros E H e He. destruct (H e He) as (a & Ha & K). exists a. split; [exact Ha|]. intros y Hy. rewrite <- !E. exact (K y Hy).
Qed.

Section Svt3.
  Context (bt bq : R) (Ht : 0 < bt) (Hq : 0 < bq).
  Let F := laplace_law bq.
  Let g n t := laplace_density bt (t - 0) * (below_chances F t (repeat 0 n) * Rmax 0 (F (0 - 1) - F (t - 1))).
  Let g' n t := laplace_density bt (t - 0) * (below_chances F t (repeat 1 n) * Rmax 0 (F (0 - 0) - F (t - 0))).

  Lemma law_bounds x : 0 <= F x <= 1.
  Proof. apply (laplace_is_cdf bq Hq). Qed.
  Lemma law_mono x y : x <= y -> F x <= F y.
  Proof. apply (laplace_is_cdf bq Hq). Qed.

  Lemma left_shift t : t <= 0 -> F t = exp (1 / bq) * F (t - 1).
  Proof.
    intros L. unfold F. rewrite !law_left by lra. replace (t / bq) with (1 / bq + (t - 1) / bq) by (field; lra). rewrite exp_plus. field.
  Qed.
  Lemma rmax_scal k x : 0 <= k -> Rmax 0 (k * x) = k * Rmax 0 x.
  Proof. intros H. unfold Rmax. destruct (Rle_dec 0 (k * x)), (Rle_dec 0 x); nra. Qed.
  Lemma pointwise n t : g (S n) t = exp (INR n / bq) * g' (S n) t.
  Proof.
    unfold g, g'. rewrite !below_repeat, !Rminus_0_r. pose proof (exp_pos (1 / bq)) as E0.
    destruct (Rle_dec t 0) as [L|L].
    - rewrite (left_shift t L). rewrite (left_shift 0) by lra.
      rewrite <- Rmult_minus_distr_l, rmax_scal by lra. rewrite Rpow_mult_distr. cbn [pow].
      assert (EN : exp (1 / bq) ^ n = exp (INR n / bq)).
      { induction n as [|k IH]; [cbn [INR pow]; unfold Rdiv; rewrite Rmult_0_l, exp_0; reflexivity|].
        cbn [pow]. rewrite IH, S_INR, <- exp_plus. f_equal. field. lra. }
      rewrite EN. ring.
    - rewrite !Rmax_left; [ring | |].
      + pose proof (law_mono 0 t ltac:(lra)). lra.
      + pose proof (law_mono (0 - 1) (t - 1) ltac:(lra)). lra.
  Qed.
  Lemma law_exists x y v n : exists p, last_at_most_law bt bq 0 (repeat x n) v y p.
  Proof.
    unfold last_at_most_law. apply (integral_exists _ (fun t => laplace_density bt (t - 0)) 1).
    - apply integral_shift, density_integral, Ht.
    - intros t. apply (continuity_pt_mult (fun t => laplace_density bt (t - 0)) (fun t => below_chances F t (repeat x n) * Rmax 0 (F (y - v) - F (t - v)))).
      { apply shifted_continuous. intros z. apply density_continuous, Ht. }
      apply (continuity_pt_mult (fun t => below_chances F t (repeat x n)) (fun t => Rmax 0 (F (y - v) - F (t - v)))).
      + induction n as [|n IH]; cbn [repeat below_chances]; [apply continuity_pt_const; intros ? ?; reflexivity|].
        apply (continuity_pt_mult (fun t => F (t - x)) (fun t => below_chances F t (repeat x n))); [|exact IH].
        apply shifted_continuous. intros z. apply laplace_continuous, Hq.
      + apply (cont_ext (fun t => (F (y - v) - F (t - v) + Rabs (F (y - v) - F (t - v))) / 2)).
        { intros z. unfold Rmax, Rabs. destruct (Rcase_abs _), (Rle_dec _ _); lra. }
        assert (C : continuity_pt (fun t => F (y - v) - F (t - v)) t).
        { apply (continuity_pt_minus (fun _ => F (y - v)) (fun t => F (t - v))); [apply continuity_pt_const; intros ? ?; reflexivity|].
          apply shifted_continuous. intros z. apply laplace_continuous, Hq. }
        apply (continuity_pt_mult (fun t => F (y - v) - F (t - v) + Rabs (F (y - v) - F (t - v))) (fun _ => / 2)); [|apply continuity_pt_const; intros ? ?; reflexivity].
        apply (continuity_pt_plus (fun t => F (y - v) - F (t - v)) (fun t => Rabs (F (y - v) - F (t - v)))); [exact C|].
        apply (continuity_pt_comp (fun t => F (y - v) - F (t - v)) Rabs); [exact C | apply Rcontinuity_abs].
    - intros t. pose proof (density_pos bt (t - 0) Ht). rewrite below_repeat. fold F.
      assert (0 <= F (t - x) ^ n <= 1).
      { pose proof (law_bounds (t - x)). split; [apply pow_le; lra|]. rewrite <- (pow1 n). apply pow_incr. lra. }
      assert (0 <= Rmax 0 (F (y - v) - F (t - v)) <= 1).
      { split; [apply Rmax_l|]. apply Rmax_lub; [lra|]. pose proof (law_bounds (y - v)). pose proof (law_bounds (t - v)). lra. }
      set (A := F (t - x) ^ n) in *. set (B := Rmax 0 _) in *. assert (AB : 0 <= A * B <= 1) by (split; [apply Rmult_le_pos; lra|]; replace 1 with (1 * 1) by ring; apply Rmult_le_compat; lra).
      set (d := laplace_density bt (t - 0)) in *. set (z := A * B) in *. split; [apply Rmult_le_pos; lra|].
      replace d with (d * 1) at 2 by ring. apply Rmult_le_compat_l; lra.
  Qed.
  Lemma positive n p : last_at_most_law bt bq 0 (repeat 1 n) 0 0 p -> 0 < p.
  Proof.
    intros P. set (c := laplace_density bt 2 * (F (-3) ^ n * (F 0 - F (-1)))).
    assert (F3 : 0 < F (-3)) by (unfold F; rewrite law_left by lra; pose proof (exp_pos (-3 / bq)); lra).
    assert (F1 : F (-1) < F 0).
    { unfold F. rewrite !law_left by lra. assert (exp (-1 / bq) < exp (0 / bq)); [|lra]. apply exp_increasing, Rmult_lt_compat_r; [apply Rinv_0_lt_compat, Hq | lra]. }
    assert (C : 0 < c).
    { unfold c. apply Rmult_lt_0_compat; [apply density_pos, Ht|]. apply Rmult_lt_0_compat; [apply pow_lt, F3 | lra]. }
    assert (c <= p); [|lra]. apply (integral_ge (g' n) p (-2) c P).
    - intros t. unfold g'. rewrite below_repeat. pose proof (density_pos bt (t - 0) Ht). apply Rmult_le_pos; [lra|].
      apply Rmult_le_pos; [apply pow_le, law_bounds | apply Rmax_l].
    - intros t T. unfold g', c. rewrite below_repeat, !Rminus_0_r. apply Rmult_le_compat.
      + left. apply density_pos, Ht.
      + apply Rmult_le_pos; [apply pow_le; lra | lra].
      + unfold laplace_density. apply Rmult_le_compat_r; [left; apply Rinv_0_lt_compat; lra|]. apply exp_le.
        apply Rmult_le_compat_r; [left; apply Rinv_0_lt_compat, Ht|]. rewrite (Rabs_left1 t), (Rabs_right 2) by lra. lra.
      + apply Rmult_le_compat; [apply pow_le; lra | lra | apply pow_incr; split; [lra | apply law_mono; lra] |].
        eapply Rle_trans; [|apply Rmax_r]. pose proof (law_mono t (-1) ltac:(lra)). lra.
  Qed.
  Lemma unbounded eps : exists n p p', last_at_most_law bt bq 0 (repeat 0 n) 1 0 p /\ last_at_most_law bt bq 0 (repeat 1 n) 0 0 p' /\
    0 < p' /\ exp eps * p' < p.
  Proof.
    assert (N0 : exists n, eps * bq < INR n).
    { exists (Z.to_nat (up (eps * bq))). destruct (archimed (eps * bq)) as [U _]. destruct (Z_le_gt_dec 0 (up (eps * bq))) as [Z|Z].
      - rewrite INR_IZR_INZ, Z2Nat.id by exact Z. lra.
      - assert (IZR (up (eps * bq)) <= 0) by (apply (IZR_le _ 0); lia). pose proof (pos_INR (Z.to_nat (up (eps * bq)))). lra. }
    destruct N0 as [n N]. exists (S n).
    destruct (law_exists 1 0 0 (S n)) as [p' P']. exists (exp (INR n / bq) * p'), p'.
    split; [|split; [exact P' | split; [exact (positive (S n) p' P')|]]].
    - pose proof (integral_scal _ _ (exp (INR n / bq)) P') as S. revert S. apply integral_ext. intros t. symmetry. exact (pointwise n t).
    - apply Rmult_lt_compat_r; [exact (positive (S n) p' P')|]. apply exp_increasing.
      apply (Rmult_lt_reg_r bq); [exact Hq|]. unfold Rdiv. rewrite Rmult_assoc, Rinv_l; lra.
  Qed.
End Svt3.

Lemma svt3_not_private e m eps : 0 < e -> (0 < m)%Z -> exists n bt bq qs p p',
  let c := mkSvt e 1 0 QUERY_TYPE_REVEAL_RECORDS (S n) 0 m in
  query_values c [0; 1; 0] = Ok (repeat 0 n ++ [1]) /\ query_values c [0; 1] = Ok (repeat 1 n ++ [0]) /\
  laplace_scale (threshold_scale SVT3 c) = Ok bt /\ query_scale SVT3 c = Some qs /\ laplace_scale qs = Ok bq /\
  last_at_most_law bt bq (threshold c) (repeat 0 n) 1 0 p /\ last_at_most_law bt bq (threshold c) (repeat 1 n) 0 0 p' /\
  0 < p' /\ exp eps * p' < p.
Proof.
  intros He Hm. assert (M : 1 <= IZR m) by (apply (IZR_le 1); lia).
  assert (B1 : 0 < 2 * (1 - 0) / e) by (apply Rdiv_lt_0_compat; lra).
  assert (B2 : 0 < 2 * IZR m * (1 - 0) / e) by (apply Rdiv_lt_0_compat; nra).
  destruct (unbounded (2 * (1 - 0) / e) (2 * IZR m * (1 - 0) / e) B1 B2 eps) as (n & p & p' & P & P' & H0 & H1).
  exists n, (2 * (1 - 0) / e), (2 * IZR m * (1 - 0) / e), (2 * IZR m * (1 - 0), e), p, p'. cbv zeta.
  assert (C0 : clip 0 1 0 = 0) by (unfold clip; rewrite Rmax_left, Rmin_left; lra).
  assert (C1 : clip 0 1 1 = 1) by (unfold clip; rewrite Rmax_left, Rmin_left; lra).
  split; [|split].
  1,2: unfold query_values, reveal_values; cbn [svt_query min_value max_value num_queries map rev app]; rewrite C0, C1;
    replace (S n - 1)%nat with n by lia; reflexivity.
  split; [|split; [reflexivity|split; [|repeat split; assumption]]].
  - unfold laplace_scale. cbn [threshold_scale fst snd svt_epsilon]. unfold svt_sensitivity. cbn [max_value min_value].
    rewrite Reqb_false by lra. rewrite Rltb_false by lra. reflexivity.
  - unfold laplace_scale. cbn [fst snd]. rewrite Reqb_false by lra. rewrite Rltb_false by lra. reflexivity.
Qed.

Lemma svt3_example : svt_call (fun _ => 0) (fun _ j => if (j =? 1)%nat then -1 else -1/2) SVT3 (mkSvt 2 1 0 QUERY_TYPE_REVEAL_RECORDS 2 (-1) 1) [0; 1] 1
  = Ok [[QueryValue (1 + 2 * 1 * (1 - 0) / 2 * (-1/2)); NoResponse]].
Proof.
  set (tn := fun _ : nat => 0). set (qn := fun (_ j : nat) => if (j =? 1)%nat then -1 else -1/2). set (c := mkSvt 2 1 0 QUERY_TYPE_REVEAL_RECORDS 2 (-1) 1).
  assert (C0 : clip 0 1 0 = 0) by (unfold clip; rewrite Rmax_left, Rmin_left; lra).
  assert (C1 : clip 0 1 1 = 1) by (unfold clip; rewrite Rmax_left, Rmin_left; lra).
  assert (Ev : query_values c [0; 1] = Ok [1; 0]).
  { unfold c, query_values, reveal_values; cbn [svt_query min_value max_value num_queries map rev app]. rewrite C0, C1. reflexivity. }
  assert (Et : laplace_scale (threshold_scale SVT3 c) = Ok (2 * (1 - 0) / 2)).
  { unfold laplace_scale, c. cbn [threshold_scale fst snd svt_epsilon]. unfold svt_sensitivity. cbn [max_value min_value].
    rewrite Reqb_false by lra. rewrite Rltb_false by lra. reflexivity. }
  assert (Es : laplace_scale (2 * IZR 1 * (1 - 0), 2) = Ok (2 * IZR 1 * (1 - 0) / 2)).
  { unfold laplace_scale. cbn [fst snd]. rewrite Reqb_false by lra. rewrite Rltb_false by lra. reflexivity. }
  destruct (svt_call_ok tn qn SVT3 c [0; 1] ltac:(rewrite Ev; discriminate)) as (vs & bt & out & _ & _ & H); [cbn; lra | cbn; lra | cbn; lia|].
  destruct (call_one tn qn SVT3 c _ out H ltac:(cbn; lia)) as [row ->]. rewrite H. do 2 f_equal.
  destruct (call_row tn qn SVT3 c [0; 1] row [1; 0] (2 * (1 - 0) / 2) (2 * IZR 1 * (1 - 0) / 2) H ltac:(cbn; lia) Ev Et Es) as [_ ->].
  unfold c, tn, qn. cbn [num_queries max_answered_queries threshold seq map nth Nat.eqb]. change (Z.to_nat 1) with 1%nat. cbn [sparse_vector shown].
  rewrite Rleb_true by lra. reflexivity.
Qed.
