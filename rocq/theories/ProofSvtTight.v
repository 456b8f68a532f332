(** The guarantee of the sparse vector mechanisms with one answer cannot be improved. *)
From Verif Require Import Base Exn TypesSvt ModelSvt SpecDP SpecMech SpecSvt SpecRun ProofShape ProofSvt ProofRun ProofSvtDp.
Local Open Scope R_scope.

Lemma chances_row F t x y n : agreement_chances F t (repeat x n ++ [y]) (repeat BelowThreshold n ++ [AboveThreshold]) = F (t - x) ^ n * (1 - F (t - y)).
Proof.
  induction n as [|n IH]; cbn [repeat app agreement_chances agreement_chance pow]; [ring|]. rewrite IH. ring.
Qed.
Lemma row_in_rows n : In (repeat BelowThreshold n ++ [AboveThreshold]) (rows (S n)).
Proof.
  induction n as [|n IH].
  - cbn. tauto.
  - change (rows (S (S n))) with (flat_map (fun o => map (cons o) (rows (S n))) [NoResponse; AboveThreshold; BelowThreshold]).
    apply in_flat_map. exists BelowThreshold. split; [cbn; tauto|]. cbn [repeat app]. apply in_map, IH.
Qed.
Lemma integral_scal g p c : integral_is g p -> integral_is (fun x => c * g x) (c * p).
Proof.
  intros (G & D & L & U). exists (fun x => c * G x). split.
  { intros x. apply (derivable_pt_lim_scal G c x (g x)), D. }
  assert (H : forall e, 0 < e -> 0 < e / (Rabs c + 1)) by (intros e He; apply Rdiv_lt_0_compat; [exact He | pose proof (Rabs_pos c); lra]).
  assert (K : forall e z, 0 < e -> Rabs z <= e / (Rabs c + 1) -> Rabs (c * z) <= e).
  { intros e z He Hz. rewrite Rabs_mult. pose proof (Rabs_pos c). apply (Rmult_le_compat_l (Rabs c)) in Hz; [|lra].
    apply (Rle_trans _ _ _ Hz). apply (Rmult_le_reg_r (Rabs c + 1)); [lra|].
    replace (Rabs c * (e / (Rabs c + 1)) * (Rabs c + 1)) with (Rabs c * e) by (field; lra). nra. }
  split; intros e He.
  - destruct (L _ (H e He)) as [m M]. exists m. intros x Hx. apply K; [exact He | apply M, Hx].
  - destruct (U _ (H e He)) as [m M]. exists m. intros x Hx. replace (c * G x - c * p) with (c * (G x - p)) by ring. apply K; [exact He | apply M, Hx].
Qed.
(** An integral is at least its part over an interval of length 1. *)
Lemma integral_ge g p a c : integral_is g p -> (forall x, 0 <= g x) -> (forall x, a <= x <= a + 1 -> c <= g x) -> c <= p.
Proof.
  intros (G & D & L & U) P B.
  assert (M : forall x y, x <= y -> G x <= G y) by (intros x y H; apply (deriv_nonneg G g x y D H); intros; apply P).
  assert (I : c <= G (a + 1) - G a).
  { pose proof (deriv_nonneg (fun x => G x - c * x) (fun x => g x - c * 1) a (a + 1)) as N. cbn beta in N.
    assert (G a - c * a <= G (a + 1) - c * (a + 1)); [|lra]. apply N; [|lra|intros z Hz; pose proof (B z Hz); lra].
    intros z. apply derivable_pt_lim_minus; [apply D | apply (derivable_pt_lim_scal (fun x => x) c z 1), derivable_pt_lim_id]. }
  apply Rnot_lt_le. intros N. set (e := (c - p) / 3). assert (He : 0 < e) by (unfold e; lra).
  destruct (L e He) as [m1 M1]. destruct (U e He) as [m2 M2].
  pose proof (M1 (Rmin m1 a) (Rmin_l _ _)) as A1. pose proof (M _ _ (Rmin_r m1 a)) as A2.
  pose proof (M2 (Rmax m2 (a + 1)) (Rmax_l _ _)) as B1. pose proof (M _ _ (Rmax_r m2 (a + 1))) as B2.
  apply abs_between in A1, B1. unfold e in *. lra.
Qed.

Lemma law_right b x : 0 <= x -> laplace_law b x = 1 - exp (- x / b) / 2.
Proof. intros H. unfold laplace_law. rewrite Rltb_false by lra. reflexivity. Qed.

Section Tight.
  Context (bt bq : R) (Ht : 0 < bt) (Hq : 0 < bq).
  Let f t := laplace_density bt t.
  Let F t := laplace_law bq t.
  Let K := exp (1 / bt + 2 / bq).
  Let g n t := f t * (F t ^ n * (1 - F (t - 1))).
  Let g' n t := f t * (F (t - 1) ^ n * (1 - F t)).

  Lemma F_bounds x : 0 <= F x <= 1.
  Proof. apply (laplace_is_cdf bq Hq). Qed.
  Lemma F_mono x y : x <= y -> F x <= F y.
  Proof. apply (laplace_is_cdf bq Hq). Qed.

  Lemma far t : 1 <= t -> forall n, g n t = K * g' n (t + 1).
  Proof.
    intros L n. unfold g, g', K, f, F, laplace_density. replace (t + 1 - 1) with t by ring.
    rewrite (law_right bq (t - 1)), (law_right bq (t + 1)) by lra. rewrite !Rabs_right by lra.
    replace (- (t - 1) / bq) with (2 / bq + - (t + 1) / bq) by (field; lra). replace (- t / bt) with (1 / bt + - (t + 1) / bt) by (field; lra).
    rewrite !exp_plus. field. lra.
  Qed.
  Lemma near t n : g' n (t + 1) <= F 1 ^ n * f (t + 1) + / K * g n t.
  Proof.
    assert (HK : 0 < K) by apply exp_pos. pose proof (density_pos bt (t + 1) Ht) as D. pose proof (density_pos bt t Ht) as D'.
    assert (P1 : 0 <= F 1 ^ n) by (apply pow_le, F_bounds). assert (Pt : 0 <= F t ^ n) by (apply pow_le, F_bounds).
    pose proof (F_bounds (t - 1)). pose proof (F_bounds (t + 1)).
    assert (G0 : 0 <= / K * g n t).
    { apply Rmult_le_pos; [left; apply Rinv_0_lt_compat, HK|]. unfold g, f. apply Rmult_le_pos; [lra|]. apply Rmult_le_pos; lra. }
    destruct (Rle_dec 1 t) as [L|L].
    - rewrite (far t L n). replace (/ K * (K * g' n (t + 1))) with (g' n (t + 1)) by (field; lra).
      assert (0 <= F 1 ^ n * f (t + 1)) by (apply Rmult_le_pos; unfold f; lra). lra.
    - assert (PL : F t ^ n <= F 1 ^ n) by (apply pow_incr; split; [apply F_bounds | apply F_mono; lra]).
      assert (g' n (t + 1) <= F 1 ^ n * f (t + 1)); [|lra]. unfold g'. replace (t + 1 - 1) with t by ring.
      rewrite (Rmult_comm (F 1 ^ n)). apply Rmult_le_compat_l; [unfold f; lra|]. nra.
  Qed.

  Lemma ratio_reached eps : exp eps < K -> exists n0, forall n p p', (n0 <= n)%nat -> integral_is (g n) p -> integral_is (g' n) p' -> exp eps * p' < p.
  Proof.
    intros HK. assert (K0 : 0 < K) by apply exp_pos. pose proof (exp_pos eps) as E0.
    assert (F1 : 0 < F 1 < F 2).
    { unfold F. rewrite !law_right by lra. assert (exp (- (2) / bq) < exp (- (1) / bq)) by (apply exp_increasing, Rmult_lt_compat_r; [apply Rinv_0_lt_compat, Hq | lra]).
      assert (exp (- (1) / bq) < exp 0) by (apply exp_increasing; unfold Rdiv; apply (Rmult_lt_reg_r bq); [exact Hq|]; rewrite Rmult_assoc, Rinv_l; lra).
      rewrite exp_0 in *. lra. }
    assert (F2 : F 2 < 1) by (unfold F; rewrite law_right by lra; pose proof (exp_pos (- (2) / bq)); lra).
    set (kap := f 3 * (1 - F 2)).
    assert (Kp : 0 < kap) by (unfold kap, f; apply Rmult_lt_0_compat; [apply density_pos, Ht | lra]).
    set (gap := / exp eps - / K). assert (Hg : 0 < gap).
    { unfold gap. assert (/ K < / exp eps) by (apply Rinv_lt_contravar; [apply Rmult_lt_0_compat|]; assumption). lra. }
    assert (Hr : 0 <= F 1 / F 2 < 1).
    { split; [apply div_nonneg; lra|]. apply (Rmult_lt_reg_r (F 2)); [lra|]. unfold Rdiv. rewrite Rmult_assoc, Rinv_l; lra. }
    destruct (pow_lt_1_zero (F 1 / F 2)) with (y := kap * gap) as [n0 N].
    { rewrite Rabs_right; lra. }
    { apply Rmult_lt_0_compat; assumption. }
    exists n0. intros n p p' Hn P P'. specialize (N n Hn). rewrite Rabs_right in N by (apply Rle_ge, pow_le, Hr).
    assert (B1 : F 2 ^ n * kap <= p).
    { apply (integral_ge (g n) p 2 _ P).
      - intros x. unfold g, f. pose proof (density_pos bt x Ht). pose proof (F_bounds (x - 1)). apply Rmult_le_pos; [lra|]. apply Rmult_le_pos; [apply pow_le, F_bounds | lra].
      - intros x Hx. unfold g, kap. replace (F 2 ^ n * (f 3 * (1 - F 2))) with (f 3 * (F 2 ^ n * (1 - F 2))) by ring.
        apply Rmult_le_compat.
        + unfold f. left. apply density_pos, Ht.
        + apply Rmult_le_pos; [apply pow_le; lra | lra].
        + unfold f, laplace_density. apply Rmult_le_compat_r; [left; apply Rinv_0_lt_compat; lra|]. apply exp_le.
          apply Rmult_le_compat_r; [left; apply Rinv_0_lt_compat, Ht|]. rewrite !Rabs_right by lra. lra.
        + apply Rmult_le_compat; [apply pow_le; lra | lra | apply pow_incr; split; [lra | apply F_mono; lra] |].
          pose proof (F_mono (x - 1) 2 ltac:(lra)). lra. }
    assert (B2 : p' <= F 1 ^ n * 1 + / K * p).
    { pose proof (integral_plus _ _ _ _ (integral_scal _ _ (F 1 ^ n) (integral_shift _ _ (- (1)) (density_integral bt Ht))) (integral_scal _ _ (/ K) P)) as S.
      pose proof (integral_le _ _ _ _ 1 (- (1)) P' S) as L. rewrite Rmult_1_l in L. apply L. intros t. rewrite Rmult_1_l.
      pose proof (near (t + - (1)) n) as T. replace (t + - (1) + 1) with t in T by ring.
      replace (t + - (1) - - (1)) with t by ring. exact T. }
    assert (F2n : 0 < F 2 ^ n) by (apply pow_lt; lra).
    assert (B3 : F 1 ^ n < gap * p).
    { replace (F 1) with (F 1 / F 2 * F 2) by (field; lra). rewrite Rpow_mult_distr.
      apply (Rlt_le_trans _ (kap * gap * F 2 ^ n)); [apply Rmult_lt_compat_r; assumption|].
      replace (kap * gap * F 2 ^ n) with (gap * (F 2 ^ n * kap)) by ring. apply Rmult_le_compat_l; [lra | exact B1]. }
    apply (Rmult_lt_reg_l (/ exp eps)); [apply Rinv_0_lt_compat, E0|]. rewrite <- Rmult_assoc, Rinv_l, Rmult_1_l by lra.
    unfold gap in B3. lra.
  Qed.
End Tight.

Definition report_list_dec := list_eq_dec report_dec.
Lemma svt_tight k e eps :
  (k = SVT1 \/ k = SVT2 \/ k = SVT4 \/ k = SVT6) -> 0 < e -> eps < svt_guarantee k 1 e ->
  exists n, forall vs vs' bt bq qs p p',
    let c := mkSvt e 1 0 QUERY_TYPE_REVEAL_RECORDS n 0 1 in
    query_values c [0; 1; 0] = Ok vs -> query_values c [0; 1] = Ok vs' ->
    laplace_scale (threshold_scale k c) = Ok bt -> query_scale k c = Some qs -> laplace_scale qs = Ok bq ->
    row_law bt bq 1 (threshold c) vs p -> row_law bt bq 1 (threshold c) vs' p' ->
    ~ dp (mkExper (list svt_value) (rows (List.length vs)) p p') eps 0.
Proof.
  intros Hk He Heps.
  set (bt0 := documented_threshold_scale k 1 (1 - 0) e). set (bq0 := documented_query_scale k 1 (1 - 0) e).
  assert (Ht : 0 < bt0) by (unfold bt0; destruct Hk as [->|[->|[->| ->]]]; cbn [documented_threshold_scale]; apply Rdiv_lt_0_compat; lra).
  assert (Hq : 0 < bq0) by (unfold bq0; destruct Hk as [->|[->|[->| ->]]]; cbn [documented_query_scale]; apply Rdiv_lt_0_compat; lra).
  assert (G : 1 / bt0 + 2 / bq0 = svt_guarantee k 1 e).
  { unfold bt0, bq0. destruct Hk as [->|[->|[->| ->]]]; cbn [documented_threshold_scale documented_query_scale svt_guarantee]; field; lra. }
  destruct (ratio_reached bt0 bq0 Ht Hq eps ltac:(rewrite G; apply exp_increasing, Heps)) as [n0 RR].
  exists (S n0). intros vs vs' bt bq qs p p' c Ev Ev' Et Eq Es P P' DP.
  destruct (scale_threshold k c bt Et) as (Hbt & _). destruct (scale_query k c qs bq Eq Es) as (Hbq & _).
  unfold c in Hbt, Hbq. cbn [max_answered_queries max_value min_value svt_epsilon] in Hbt, Hbq. fold bt0 in Hbt. fold bq0 in Hbq.
  subst bt bq.
  assert (C0 : clip 0 1 0 = 0) by (unfold clip; rewrite Rmax_left, Rmin_left; lra).
  assert (C1 : clip 0 1 1 = 1) by (unfold clip; rewrite Rmax_left, Rmin_left; lra).
  pose proof (revealed 0 1 [0] 1 0 vs (S n0) 0 1%Z e Ev) as V. pose proof (revealed 0 1 [] 0 1 vs' (S n0) 0 1%Z e Ev') as V'.
  rewrite C0, C1 in V, V'. replace (S n0 - 1)%nat with n0 in V, V' by lia.
  assert (L : List.length vs = S n0) by (rewrite V, app_length, repeat_length; cbn [List.length]; lia).
  assert (L' : List.length vs' = S n0) by (rewrite V', app_length, repeat_length; cbn [List.length]; lia).
  set (row := repeat BelowThreshold n0 ++ [AboveThreshold]).
  assert (I : In row (rows (S n0))) by apply row_in_rows.
  pose proof (P row ltac:(rewrite L; exact I)) as Q. pose proof (P' row ltac:(rewrite L'; exact I)) as Q'. unfold c in Q, Q'. cbn [threshold] in Q, Q'.
  assert (Z : exp eps * p' row < p row).
  { apply (RR n0 (p row) (p' row) (Nat.le_refl _)).
    - revert Q. apply integral_ext. intros t. unfold row_chance, row. rewrite possible_row by lia. rewrite V, chances_row, !Rminus_0_r. reflexivity.
    - revert Q'. apply integral_ext. intros t. unfold row_chance, row. rewrite possible_row by lia. rewrite V', chances_row, !Rminus_0_r. reflexivity. }
  specialize (DP (fun r => if list_eq_dec report_dec r row then true else false)).
  unfold ProbP, ProbQ in DP. cbn [outs prP prQ outcome] in DP. rewrite L in DP.
  assert (S0 : forall (h : list svt_value -> R) l, rsum h (filter (fun r => if list_eq_dec report_dec r row then true else false) l) = INR (count_occ report_list_dec l row) * h row).
  { intros h l. induction l as [|r l IHl]; cbn [filter rsum count_occ]; [cbn [INR]; ring|].
    destruct (list_eq_dec report_dec r row) as [->|N]; [|destruct (report_list_dec r row); [contradiction | exact IHl]].
    destruct (report_list_dec row row); [|contradiction]. cbn [rsum]. rewrite IHl, S_INR. ring. }
  rewrite !S0 in DP. assert (C : 0 < INR (count_occ report_list_dec (rows (S n0)) row)).
  { apply lt_0_INR. apply (proj1 (count_occ_In report_list_dec (rows (S n0)) row) I). }
  rewrite Rplus_0_r in DP. nra.
Qed.

Lemma svt_tight_reached k e eps :
  (k = SVT1 \/ k = SVT2 \/ k = SVT4 \/ k = SVT6) -> 0 < e -> eps < svt_guarantee k 1 e ->
  exists n vs vs' bt bq qs p p',
    let c := mkSvt e 1 0 QUERY_TYPE_REVEAL_RECORDS n 0 1 in
    query_values c [0; 1; 0] = Ok vs /\ query_values c [0; 1] = Ok vs' /\
    laplace_scale (threshold_scale k c) = Ok bt /\ query_scale k c = Some qs /\ laplace_scale qs = Ok bq /\
    row_law bt bq 1 (threshold c) vs p /\ row_law bt bq 1 (threshold c) vs' p' /\
    ~ dp (mkExper (list svt_value) (rows (List.length vs)) p p') eps 0.
Proof.
  intros Hk He Heps. destruct (svt_tight k e eps Hk He Heps) as [n N]. set (c := mkSvt e 1 0 QUERY_TYPE_REVEAL_RECORDS n 0 1) in *.
  assert (Ev : exists vs, query_values c [0; 1; 0] = Ok vs) by (eexists; reflexivity).
  assert (Ev' : exists vs, query_values c [0; 1] = Ok vs) by (eexists; reflexivity).
  assert (Et : exists bt, laplace_scale (threshold_scale k c) = Ok bt /\ 0 < bt).
  { destruct Hk as [->|[->|[->| ->]]]; unfold laplace_scale; cbn [threshold_scale fst snd svt_epsilon c max_answered_queries]; unfold svt_sensitivity; cbn [max_value min_value c];
      (rewrite Reqb_false by lra); (rewrite Rltb_false by (apply div_nonneg; lra)); eexists; (split; [reflexivity | apply Rdiv_lt_0_compat; lra]). }
  assert (Eq : exists qs bq, query_scale k c = Some qs /\ laplace_scale qs = Ok bq /\ 0 < bq).
  { destruct Hk as [->|[->|[->| ->]]]; cbn [query_scale]; eexists; eexists; (split; [reflexivity|]); unfold laplace_scale; cbn [fst snd svt_epsilon c max_answered_queries]; unfold svt_sensitivity; cbn [max_value min_value c];
      (rewrite Reqb_false by lra); (rewrite Rltb_false by (apply div_nonneg; lra)); (split; [reflexivity | apply Rdiv_lt_0_compat; lra]). }
  destruct Ev as [vs Ev], Ev' as [vs' Ev'], Et as (bt & Et & Hbt), Eq as (qs & bq & Eq & Es & Hbq).
  destruct (row_law_exists bt bq 1 (threshold c) vs Hbt Hbq) as [p P]. destruct (row_law_exists bt bq 1 (threshold c) vs' Hbt Hbq) as [p' P'].
  exists n, vs, vs', bt, bq, qs, p, p'. cbv zeta. fold c. repeat split; try assumption.
  exact (N vs vs' bt bq qs p p' Ev Ev' Et Eq Es P P').
Qed.
