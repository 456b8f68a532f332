(** The privacy of the sparse vector mechanisms. *)
From Verif Require Import Base Exn TypesSvt ModelSvt SpecDP SpecMech SpecSvt SpecRun ProofShape ProofSvt ProofRun.
Local Open Scope R_scope.

Lemma exp_ge_1 x : 0 <= x -> 1 <= exp x.
Proof. intros H. rewrite <- exp_0. apply exp_le, H. Qed.
Lemma div_nonneg a b : 0 <= a -> 0 < b -> 0 <= a / b.
Proof. intros A B. apply Rmult_le_pos; [exact A | left; apply Rinv_0_lt_compat, B]. Qed.

Lemma abs_between x d : Rabs x <= d -> - d <= x <= d.
Proof. unfold Rabs. destruct (Rcase_abs x); lra. Qed.

Lemma forall2_len {A B} (P : A -> B -> Prop) la lb : Forall2 P la lb -> List.length la = List.length lb.
Proof. intros H. induction H; cbn [List.length]; congruence. Qed.

(** The Laplace distribution under a shift. *)
Lemma laplace_shift b y d : 0 < b -> 0 <= d -> laplace_law b (y + d) <= exp (d / b) * laplace_law b y.
Proof.
  intros Hb Hd. pose proof (exp_ge_1 (d / b) (div_nonneg d b Hd Hb)) as W. unfold laplace_law.
  destruct (Rltb_spec (y + d) 0) as [H|H], (Rltb_spec y 0) as [K|K]; try lra.
  - replace (exp (d / b) * (exp (y / b) / 2)) with (exp ((y + d) / b) / 2); [lra|].
    replace ((y + d) / b) with (d / b + y / b) by (field; lra). rewrite exp_plus. field.
  - replace (exp (d / b) * (exp (y / b) / 2)) with (exp ((y + d) / b) / 2).
    2:{ replace ((y + d) / b) with (d / b + y / b) by (field; lra). rewrite exp_plus. field. }
    replace (- (y + d) / b) with (- ((y + d) / b)) by (field; lra). rewrite exp_Ropp.
    pose proof (exp_pos ((y + d) / b)) as P. set (u := exp ((y + d) / b)) in *.
    apply (Rmult_le_reg_r (2 * u)); [lra|]. replace ((1 - / u / 2) * (2 * u)) with (2 * u - 1) by (field; lra). pose proof (Rle_0_sqr (u - 1)) as SQ. unfold Rsqr in SQ. nra.
  - replace (- (y + d) / b) with (- (d / b) + - y / b) by (field; lra). rewrite exp_plus, exp_Ropp.
    assert (Z : 0 < exp (- y / b) <= 1).
    { split; [apply exp_pos|]. rewrite <- exp_0. apply exp_le. pose proof (div_nonneg y b ltac:(lra) Hb). replace (- y / b) with (- (y / b)) by (field; lra). lra. }
    set (z := exp (- y / b)) in *. set (w := exp (d / b)) in *.
    apply (Rmult_le_reg_r (2 * w)); [lra|]. replace ((1 - / w * z / 2) * (2 * w)) with (2 * w - z) by (field; lra).
    replace (w * (1 - z / 2) * (2 * w)) with (2 * (w * w) - z * (w * w)) by field.
    assert (0 <= (w - 1) * (2 * w - z * (w + 1))); [|nra]. apply Rmult_le_pos; [lra|]. nra.
Qed.
Lemma laplace_tail_shift b x d : 0 < b -> 0 <= d -> 1 - laplace_law b x <= exp (d / b) * (1 - laplace_law b (x + d)).
Proof.
  intros Hb Hd. rewrite (laplace_mirror b x), (laplace_mirror b (x + d)).
  pose proof (laplace_shift b (- (x + d)) d Hb Hd) as H. replace (- (x + d) + d) with (- x) in H by ring. lra.
Qed.
Lemma density_pos b x : 0 < b -> 0 < laplace_density b x.
Proof. intros H. unfold laplace_density. apply Rdiv_lt_0_compat; [apply exp_pos | lra]. Qed.
Lemma density_shift b x d : 0 < b -> 0 <= d -> laplace_density b x <= exp (d / b) * laplace_density b (x + d).
Proof.
  intros Hb Hd. unfold laplace_density.
  replace (exp (d / b) * (exp (- Rabs (x + d) / b) / (2 * b))) with (exp ((d - Rabs (x + d)) / b) / (2 * b)).
  2:{ replace ((d - Rabs (x + d)) / b) with (d / b + - Rabs (x + d) / b) by (field; lra). rewrite exp_plus. field. lra. }
  apply Rmult_le_compat_r; [left; apply Rinv_0_lt_compat; lra|]. apply exp_le.
  apply Rmult_le_compat_r; [left; apply Rinv_0_lt_compat; lra|].
  pose proof (Rabs_triang x d) as T. rewrite (Rabs_right d) in T by lra. lra.
Qed.
Lemma density_integral b : 0 < b -> integral_is (laplace_density b) 1.
Proof.
  intros Hb. destruct (laplace_is_cdf b Hb) as (B & M & L & U). exists (laplace_law b). split.
  { intros x. unfold laplace_density. replace (exp (- Rabs x / b) / (2 * b)) with (/ (2 * b) * exp (- Rabs x / b)) by (field; lra). apply laplace_deriv, Hb. }
  split; intros e He.
  - destruct (L e He) as [m Hm]. exists m. intros x Hx. pose proof (B x). pose proof (M x m Hx). apply Rabs_le. lra.
  - destruct (U e He) as [m Hm]. exists m. intros x Hx. pose proof (B x). pose proof (M m x Hx). apply Rabs_le. lra.
Qed.
Lemma integral_shift g p d : integral_is g p -> integral_is (fun x => g (x - d)) p.
Proof.
  intros (G & D & L & U). exists (fun x => G (x - d)). split.
  { intros x. replace (g (x - d)) with (g (x - d) * (1 - 0)) by ring.
    apply (derivable_pt_lim_comp (fun x => x - d) G); [|apply D].
    apply derivable_pt_lim_minus; [apply derivable_pt_lim_id | apply derivable_pt_lim_const]. }
  split; intros e He; [destruct (L e He) as [m H] | destruct (U e He) as [m H]]; exists (m + d); intros x Hx; apply H; lra.
Qed.

(** The chances of the rows. *)
Lemma chance_pos F t v o : (forall x, 0 <= F x <= 1) -> 0 <= agreement_chance F t v o <= 1.
Proof. intros B. pose proof (B (t - v)). destruct o; cbn [agreement_chance]; lra. Qed.
Lemma chances_pos F t vs row : (forall x, 0 <= F x <= 1) -> 0 <= agreement_chances F t vs row <= 1.
Proof.
  intros B. revert row; induction vs as [|v vs IH]; intros [|o row]; cbn [agreement_chances]; try lra.
  pose proof (IH row). pose proof (chance_pos F t v o B). nra.
Qed.
Lemma row_chance_pos F a t vs row : (forall x, 0 <= F x <= 1) -> 0 <= row_chance F a t vs row <= 1.
Proof. intros B. unfold row_chance. destruct (possible a row); [apply chances_pos, B | lra]. Qed.

(** The rows of a run have total chance 1. *)
Lemma rows_total F t vs : forall a, rsum (row_chance F a t vs) (rows (List.length vs)) = 1.
Proof.
  induction vs as [|v vs IH]; intros a; cbn [List.length rows].
  - cbn [rsum]. unfold row_chance. cbn [possible agreement_chances]. lra.
  - cbn [flat_map]. rewrite app_nil_r, !rsum_app, !rsum_map.
    assert (E : forall o n, rsum (fun row => agreement_chance F t v o * row_chance F n t vs row) (rows (List.length vs)) = agreement_chance F t v o).
    { intros o n. rewrite rsum_scal, IH. ring. }
    assert (Z : forall l : list (list svt_value), rsum (fun _ => 0) l = 0) by (induction l; cbn [rsum]; [reflexivity | rewrite IHl; ring]).
    destruct a as [|a].
    + rewrite (rsum_ext _ (fun row => agreement_chance F t v NoResponse * row_chance F 0 t vs row)).
      2:{ intros row _. unfold row_chance. cbn [possible agreement_chances]. destruct (possible 0 row); ring. }
      rewrite E. rewrite !(rsum_ext (fun x => row_chance F 0 t (v :: vs) (_ :: x)) (fun _ => 0)) by (intros; reflexivity).
      rewrite !Z. cbn [agreement_chance]. ring.
    + rewrite (rsum_ext (fun x => row_chance F (S a) t (v :: vs) (NoResponse :: x)) (fun _ => 0)) by (intros; reflexivity).
      rewrite (rsum_ext (fun x => row_chance F (S a) t (v :: vs) (AboveThreshold :: x)) (fun row => agreement_chance F t v AboveThreshold * row_chance F a t vs row)).
      2:{ intros row _. unfold row_chance. cbn [possible agreement_chances]. destruct (possible a row); ring. }
      rewrite (rsum_ext (fun x => row_chance F (S a) t (v :: vs) (BelowThreshold :: x)) (fun row => agreement_chance F t v BelowThreshold * row_chance F (S a) t vs row)).
      2:{ intros row _. unfold row_chance. cbn [possible agreement_chances]. destruct (possible (S a) row); ring. }
      rewrite !E, Z. cbn [agreement_chance]. ring.
Qed.

(** Changing the values by at most [d] and the threshold by [d]. *)
Lemma row_chance_shift b d t : 0 < b -> 0 <= d -> forall vs vs', Forall2 (fun v v' => Rabs (v - v') <= d) vs vs' -> forall row a,
  row_chance (laplace_law b) a t vs row <= exp (INR a * (2 * d / b)) * row_chance (laplace_law b) a (t + d) vs' row.
Proof.
  intros Hb Hd. destruct (laplace_is_cdf b Hb) as (B & M & _ & _).
  assert (W : 0 <= 2 * d / b) by (apply div_nonneg; lra).
  intros vs vs' H. unfold row_chance. induction H as [|v v' vs vs' Hv H IH]; intros row a.
  - assert (E : 1 <= exp (INR a * (2 * d / b))) by (apply exp_ge_1, Rmult_le_pos; [apply pos_INR | exact W]).
    destruct row as [|o row]; cbn [agreement_chances]; destruct (possible a _); lra.
  - apply abs_between in Hv.
    destruct row as [|o row]; [cbn [possible agreement_chances]; lra|].
    assert (Z : 0 <= exp (INR a * (2 * d / b)) * 0) by lra.
    destruct o, a as [|a]; cbn [possible agreement_chances agreement_chance]; try lra.
    + specialize (IH row 0%nat). destruct (possible 0 row); lra.
    + specialize (IH row a). destruct (possible a row); [|lra].
      pose proof (chances_pos (laplace_law b) t vs row B) as P1. pose proof (chances_pos (laplace_law b) (t + d) vs' row B) as P2.
      assert (S1 : 1 - laplace_law b (t - v) <= exp (2 * d / b) * (1 - laplace_law b (t + d - v'))).
      { eapply Rle_trans; [apply (laplace_tail_shift b (t - v) (2 * d) Hb ltac:(lra))|].
        apply Rmult_le_compat_l; [left; apply exp_pos|]. pose proof (M (t + d - v') (t - v + 2 * d) ltac:(lra)). lra. }
      rewrite S_INR, Rmult_plus_distr_r, Rmult_1_l, exp_plus.
      replace (exp (INR a * (2 * d / b)) * exp (2 * d / b) * ((1 - laplace_law b (t + d - v')) * agreement_chances (laplace_law b) (t + d) vs' row))
        with ((exp (2 * d / b) * (1 - laplace_law b (t + d - v'))) * (exp (INR a * (2 * d / b)) * agreement_chances (laplace_law b) (t + d) vs' row)) by ring.
      apply Rmult_le_compat; try lra. pose proof (B (t - v)). lra.
    + specialize (IH row (S a)). destruct (possible (S a) row); [|lra].
      pose proof (chances_pos (laplace_law b) t vs row B) as P1. pose proof (chances_pos (laplace_law b) (t + d) vs' row B) as P2.
      pose proof (M (t - v) (t + d - v') ltac:(lra)) as S1. pose proof (B (t - v)).
      replace (exp (INR (S a) * (2 * d / b)) * (laplace_law b (t + d - v') * agreement_chances (laplace_law b) (t + d) vs' row))
        with (laplace_law b (t + d - v') * (exp (INR (S a) * (2 * d / b)) * agreement_chances (laplace_law b) (t + d) vs' row)) by ring.
      apply Rmult_le_compat; lra.
Qed.

(** The probabilities of the rows on two datasets. *)
Lemma row_law_le bt bq a t0 vs vs' p p' d row : 0 < bt -> 0 < bq -> 0 <= d -> Forall2 (fun v v' => Rabs (v - v') <= d) vs vs' ->
  row_law bt bq a t0 vs p -> row_law bt bq a t0 vs' p' -> In row (rows (List.length vs)) ->
  p row <= exp (d / bt + INR a * (2 * d / bq)) * p' row.
Proof.
  intros Ht Hq Hd Hv P P' Hr. destruct (laplace_is_cdf bq Hq) as (B & _).
  assert (Hl : List.length vs = List.length vs') by exact (forall2_len _ _ _ Hv).
  refine (integral_le _ _ _ _ _ d (P row Hr) (P' row ltac:(rewrite <- Hl; exact Hr)) _). intros t. cbn beta.
  replace (t + d - t0) with (t - t0 + d) by ring. rewrite exp_plus.
  pose proof (density_shift bt (t - t0) d Ht Hd) as D. pose proof (density_pos bt (t - t0) Ht) as D0.
  pose proof (row_chance_shift bq d t Hq Hd vs vs' Hv row a) as C. pose proof (row_chance_pos (laplace_law bq) a t vs row B) as C0.
  replace (exp (d / bt) * exp (INR a * (2 * d / bq)) * (laplace_density bt (t - t0 + d) * row_chance (laplace_law bq) a (t + d) vs' row))
    with ((exp (d / bt) * laplace_density bt (t - t0 + d)) * (exp (INR a * (2 * d / bq)) * row_chance (laplace_law bq) a (t + d) vs' row)) by ring.
  apply Rmult_le_compat; lra.
Qed.

Lemma row_law_total bt bq a t0 vs p : 0 < bt -> 0 < bq -> row_law bt bq a t0 vs p ->
  (forall row, In row (rows (List.length vs)) -> 0 <= p row) /\ rsum p (rows (List.length vs)) = 1.
Proof.
  intros Ht Hq P. destruct (laplace_is_cdf bq Hq) as (B & _). split.
  - intros row Hr. apply (integral_nonneg _ _ (P row Hr)). intros t. apply Rmult_le_pos; [left; apply density_pos, Ht | apply row_chance_pos, B].
  - pose proof (integral_rsum _ p (rows (List.length vs)) P) as I. cbn beta in I.
    apply (integral_unique _ _ _ I). apply (integral_ext (fun t => laplace_density bt (t - t0))); [|apply integral_shift, density_integral, Ht].
    intros t. rewrite rsum_scal, rows_total. ring.
Qed.

Lemma pure_dp {A} (os : list A) (p q : A -> R) eps : (forall a, In a os -> p a <= exp eps * q a) -> dp (mkExper A os p q) eps 0.
Proof.
  intros H S. unfold ProbP, ProbQ. cbn [outs prP prQ outcome]. rewrite Rplus_0_r, <- rsum_scal.
  apply rsum_le. intros a Ha. apply filter_In in Ha. apply H, Ha.
Qed.

(** The queries differ by at most the sensitivity. *)
Lemma clip_bounds lo hi x : lo <= hi -> lo <= clip lo hi x <= hi.
Proof.
  intros H. unfold clip. split; [apply Rmin_glb; [apply Rmax_r | exact H] | apply Rmin_r].
Qed.
Lemma forall2_repeat {A} (P : A -> A -> Prop) x y n : P x y -> Forall2 P (repeat x n) (repeat y n).
Proof. intros H. induction n; cbn [repeat]; constructor; assumption. Qed.
Lemma values_close c d d' vs vs' : min_value c <= max_value c -> svt_neighbours c d d' ->
  query_values c d = Ok vs -> query_values c d' = Ok vs' ->
  Forall2 (fun v v' => Rabs (v - v') <= max_value c - min_value c) vs vs'.
Proof.
  intros Hm N. unfold svt_neighbours in N. unfold query_values. destruct (svt_query c); [discriminate| |].
  - unfold sum_values. intros E E'. injection E as <-. injection E' as <-. apply forall2_repeat.
    destruct N as (l & x & y & r & -> & ->). rewrite !rsum_app. cbn [rsum].
    pose proof (clip_bounds (min_value c) (max_value c) x Hm). pose proof (clip_bounds (min_value c) (max_value c) y Hm).
    apply Rabs_le. lra.
  - unfold reveal_values. intros E E'.
    assert (B : forall d0 v, In v (rev (map (clip (min_value c) (max_value c)) d0)) -> min_value c <= v <= max_value c).
    { intros d0 v Hv. apply in_rev in Hv. apply in_map_iff in Hv. destruct Hv as (z & <- & _). apply clip_bounds, Hm. }
    pose proof (B d) as B1. pose proof (B d') as B2.
    destruct (rev (map (clip (min_value c) (max_value c)) d)) as [|a [|b l]]; try discriminate.
    destruct (rev (map (clip (min_value c) (max_value c)) d')) as [|a' [|b' l']]; try discriminate.
    injection E as <-. injection E' as <-.
    pose proof (B1 a ltac:(left; reflexivity)). pose proof (B1 b ltac:(right; left; reflexivity)).
    pose proof (B2 a' ltac:(left; reflexivity)). pose proof (B2 b' ltac:(right; left; reflexivity)).
    apply Forall2_app; [apply forall2_repeat | constructor; [|constructor]]; apply Rabs_le; lra.
Qed.
Lemma one_replaced_sym d d' : one_replaced d d' -> one_replaced d' d.
Proof. intros (l & x & y & r & H & H'). exists l, y, x, r. split; assumption. Qed.
Lemma neighbours_sym c d d' : svt_neighbours c d d' -> svt_neighbours c d' d.
Proof. unfold svt_neighbours. destruct (svt_query c); auto using one_replaced_sym. Qed.

Lemma guarantee_enough k c bt bq qs : reports_only k = true -> 0 < svt_epsilon c -> min_value c < max_value c -> (0 < max_answered_queries c)%Z ->
  laplace_scale (threshold_scale k c) = Ok bt -> query_scale k c = Some qs -> laplace_scale qs = Ok bq ->
  0 < bt /\ 0 < bq /\
  (max_value c - min_value c) / bt + INR (Z.to_nat (max_answered_queries c)) * (2 * (max_value c - min_value c) / bq)
    <= svt_guarantee k (IZR (max_answered_queries c)) (svt_epsilon c).
Proof.
  intros K He Hm Ha Et Eq Es. destruct (scale_threshold k c bt Et) as (-> & _). destruct (scale_query k c qs bq Eq Es) as (-> & _).
  rewrite INR_IZR_INZ, Z2Nat.id by lia. assert (Ha' : 1 <= IZR (max_answered_queries c)) by (apply IZR_le; lia).
  set (n := IZR (max_answered_queries c)) in *. set (s := max_value c - min_value c). assert (Hs : 0 < s) by (unfold s; lra). set (e := svt_epsilon c) in *.
  assert (P : forall a b, 0 < a -> 0 < b -> 0 < a / b) by (intros; apply Rdiv_lt_0_compat; assumption).
  destruct k; try discriminate K; cbn [documented_threshold_scale documented_query_scale svt_guarantee];
    (split; [apply P; nra|]; split; [apply P; nra|]).
  - right. field. lra.
  - replace (s / (2 * n * s / e) + n * (2 * s / (4 * n * s / e))) with (e / 2 * (/ n) + e / 2) by (field; lra).
    assert (/ n <= 1) by (rewrite <- Rinv_1; apply Rinv_le_contravar; lra). nra.
  - right. field. lra.
  - right. field. lra.
Qed.

(** SVT1, SVT2, SVT4 and SVT6 are private. *)
Lemma svt_private k c d d' vs vs' bt bq qs p p' :
  reports_only k = true -> 0 < svt_epsilon c -> min_value c < max_value c -> (0 < max_answered_queries c)%Z ->
  svt_neighbours c d d' -> query_values c d = Ok vs -> query_values c d' = Ok vs' ->
  laplace_scale (threshold_scale k c) = Ok bt -> query_scale k c = Some qs -> laplace_scale qs = Ok bq ->
  row_law bt bq (Z.to_nat (max_answered_queries c)) (threshold c) vs p ->
  row_law bt bq (Z.to_nat (max_answered_queries c)) (threshold c) vs' p' ->
  let E := mkExper (list svt_value) (rows (List.length vs)) p p' in
  valid E /\ dp_both E (svt_guarantee k (IZR (max_answered_queries c)) (svt_epsilon c)) 0.
Proof.
  intros K He Hm Ha N Ev Ev' Et Eq Es P P' E.
  destruct (guarantee_enough k c bt bq qs K He Hm Ha Et Eq Es) as (Ht & Hq & G).
  pose proof (values_close c d d' vs vs' ltac:(lra) N Ev Ev') as C. pose proof (values_close c d' d vs' vs ltac:(lra) (neighbours_sym c d d' N) Ev' Ev) as C'.
  assert (Hl : List.length vs = List.length vs') by exact (forall2_len _ _ _ C).
  destruct (row_law_total bt bq _ _ vs p Ht Hq P) as [P0 P1]. destruct (row_law_total bt bq _ _ vs' p' Ht Hq P') as [P0' P1'].
  rewrite <- Hl in P0', P1'.
  assert (Hs : 0 <= max_value c - min_value c) by lra.
  split; [|split].
  - split; [intros row Hr; split; [apply P0, Hr | apply P0', Hr]|]. split; assumption.
  - apply pure_dp. intros row Hr. eapply Rle_trans; [apply (row_law_le bt bq _ _ vs vs' p p' _ row Ht Hq Hs C P P' Hr)|].
    apply Rmult_le_compat_r; [apply P0', Hr | apply exp_le, G].
  - apply (pure_dp (rows (List.length vs)) p' p). intros row Hr.
    eapply Rle_trans; [apply (row_law_le bt bq _ _ vs' vs p' p _ row Ht Hq Hs C' P' P ltac:(rewrite <- Hl; exact Hr))|].
    apply Rmult_le_compat_r; [apply P0, Hr | apply exp_le, G].
Qed.

(** The probabilities exist. *)
Lemma laplace_continuous b x : 0 < b -> continuity_pt (laplace_law b) x.
Proof. intros Hb. apply derivable_continuous_pt. exists (/ (2 * b) * exp (- Rabs x / b)). apply laplace_deriv, Hb. Qed.
Lemma shifted_continuous g d x : (forall y, continuity_pt g y) -> continuity_pt (fun t => g (t - d)) x.
Proof.
  intros H. apply (continuity_pt_comp (fun t => t - d) g); [|apply H].
  apply continuity_pt_minus; [apply derivable_continuous_pt, derivable_pt_id | apply continuity_pt_const; intros ? ?; reflexivity].
Qed.
Lemma chances_continuous b vs : 0 < b -> forall row x, continuity_pt (fun t => agreement_chances (laplace_law b) t vs row) x.
Proof.
  intros Hb. induction vs as [|v vs IH]; intros [|o row] x; cbn [agreement_chances];
    try (apply continuity_pt_const; intros ? ?; reflexivity).
  apply (continuity_pt_mult (fun t => agreement_chance (laplace_law b) t v o) (fun t => agreement_chances (laplace_law b) t vs row)); [|apply IH].
  pose proof (fun x => shifted_continuous (laplace_law b) v x (fun y => laplace_continuous b y Hb)) as C.
  destruct o; cbn [agreement_chance]; try (apply continuity_pt_const; intros ? ?; reflexivity).
  - apply (continuity_pt_minus (fun _ => 1) (fun t => laplace_law b (t - v))); [apply continuity_pt_const; intros ? ?; reflexivity | apply C].
  - apply C.
Qed.
Lemma density_continuous b x : 0 < b -> continuity_pt (laplace_density b) x.
Proof.
  intros Hb. unfold laplace_density.
  apply (continuity_pt_mult (fun y => exp (- Rabs y / b)) (fun _ => / (2 * b))); [|apply continuity_pt_const; intros ? ?; reflexivity].
  apply (continuity_pt_comp (fun y => - Rabs y / b) exp); [|apply derivable_continuous_pt, derivable_pt_exp].
  apply (continuity_pt_mult (fun y => - Rabs y) (fun _ => / b)); [|apply continuity_pt_const; intros ? ?; reflexivity].
  apply (continuity_pt_opp Rabs). apply Rcontinuity_abs.
Qed.
Lemma report_dec (x y : svt_value) : {x = y} + {x <> y}.
Proof. decide equality. apply Req_EM_T. Qed.
Lemma finite_choice (P : list svt_value -> R -> Prop) (l : list (list svt_value)) : (forall row, exists q, P row q) ->
  exists p : list svt_value -> R, forall row, In row l -> P row (p row).
Proof.
  intros H. induction l as [|a l [p IH]]; [exists (fun _ => 0); intros ? []|].
  destruct (H a) as [q Hq]. exists (fun row => if list_eq_dec report_dec row a then q else p row).
  intros row Hr. destruct (list_eq_dec report_dec row a) as [->|E]; [exact Hq|].
  destruct Hr as [Hr|Hr]; [congruence | apply IH, Hr].
Qed.
Lemma row_law_exists bt bq a t0 vs : 0 < bt -> 0 < bq -> exists p, row_law bt bq a t0 vs p.
Proof.
  intros Ht Hq. destruct (laplace_is_cdf bq Hq) as (B & _).
  assert (H : forall row, exists q, integral_is (fun t => laplace_density bt (t - t0) * row_chance (laplace_law bq) a t vs row) q).
  { intros row. apply (integral_exists _ (fun t => laplace_density bt (t - t0)) 1).
    - apply integral_shift, density_integral, Ht.
    - intros x. apply (continuity_pt_mult (fun t => laplace_density bt (t - t0)) (fun t => row_chance (laplace_law bq) a t vs row)).
      + apply shifted_continuous. intros y. apply density_continuous, Ht.
      + unfold row_chance. destruct (possible a row); [apply chances_continuous, Hq | apply continuity_pt_const; intros ? ?; reflexivity].
    - intros x. pose proof (density_pos bt (x - t0) Ht). pose proof (row_chance_pos (laplace_law bq) a x vs row B). nra. }
  exact (finite_choice _ (rows (List.length vs)) H).
Qed.

(** The noise that gives a row. *)
Lemma run_rows show t qs row : (forall q, show q = AboveThreshold) -> forall a,
  sparse_vector show a t qs = row <->
  possible a row = true /\ Forall2 (fun q o => agrees t q 0 o) qs row.
Proof.
  intros Hs. revert row; induction qs as [|q qs IH]; intros row a.
  - split.
    + intros <-. split; [|constructor]. reflexivity.
    + intros [_ F]. inversion F. destruct a; reflexivity.
  - split.
    + intros <-. destruct a as [|a]; cbn [sparse_vector].
      * destruct (proj1 (IH _ 0%nat) eq_refl) as [P F]. split; [exact P | constructor; [exact Logic.I | exact F]].
      * destruct (Rleb_spec t q) as [L|L].
        -- destruct (proj1 (IH _ a) eq_refl) as [P F]. rewrite Hs. split; [exact P | constructor; [cbn [agrees]; lra | exact F]].
        -- destruct (proj1 (IH _ (S a)) eq_refl) as [P F]. split; [exact P | constructor; [cbn [agrees]; lra | exact F]].
    + intros [P F]. inversion F as [|q' o qs' row' A F' E1 E2]; subst.
      destruct o, a as [|a]; try discriminate P; cbn [possible] in P; cbn [sparse_vector agrees] in *.
      * f_equal. apply (proj2 (IH row' 0%nat)). split; assumption.
      * rewrite Rleb_true by lra. rewrite Hs. f_equal. apply (proj2 (IH row' a)). split; assumption.
      * rewrite Rleb_false by lra. f_equal. apply (proj2 (IH row' (S a))). split; assumption.
Qed.

Lemma forall2_nth {A B} (P : A -> B -> Prop) (da : A) (db : B) la lb :
  Forall2 P la lb <-> List.length la = List.length lb /\ forall j, (j < List.length la)%nat -> P (nth j la da) (nth j lb db).
Proof.
  split.
  - intros H. split; [exact (forall2_len _ _ _ H)|]. induction H as [|a b la lb Hab H IH]; intros j Hj; cbn [List.length] in Hj; [lia|].
    destruct j as [|j]; cbn [nth]; [exact Hab | apply IH; lia].
  - revert lb; induction la as [|a la IH]; intros [|b lb] [E H]; try discriminate E; constructor.
    + exact (H 0%nat ltac:(cbn [List.length]; lia)).
    + apply IH. cbn [List.length] in E. split; [lia|]. intros j Hj. exact (H (S j) ltac:(cbn [List.length]; lia)).
Qed.

(** The row of one sample. *)
Lemma call_row tn qn k c data out vs bt bq : svt_call tn qn k c data 1 = Ok [out] -> (0 < num_queries c)%nat ->
  query_values c data = Ok vs -> laplace_scale (threshold_scale k c) = Ok bt ->
  match query_scale k c with Some qs => laplace_scale qs = Ok bq | None => bq = 0 end ->
  List.length vs = num_queries c /\
  out = sparse_vector (shown k) (Z.to_nat (max_answered_queries c)) (threshold c + bt * tn 0%nat)
    (map (fun j => nth j vs 0 + bq * qn 0%nat j) (seq 0 (num_queries c))).
Proof.
  intros H Hn Ev Et Eq.
  assert (Hv : List.length vs = num_queries c) by apply (query_values_ok c data vs Ev Hn).
  split; [exact Hv|].
  destruct (scale_threshold k c bt Et) as (Ht & _).
    assert (Hq : bq = documented_query_scale k (IZR (max_answered_queries c)) (max_value c - min_value c) (svt_epsilon c)).
    { destruct (query_scale k c) as [qs|] eqn:E; [apply (scale_query k c qs bq E Eq)|]. subst bq. destruct k; try discriminate E; reflexivity. }
    destruct (call_rows tn qn k c data 1 [out] H Hn) as (vs2 & Hl2 & Hv2 & _ & _ & E). cbn [seq map] in E. injection E as E.
    rewrite E, <- Ht, <- Hq. f_equal. apply map_ext_in. intros j Hj. apply in_seq in Hj. f_equal.
    pose proof (proj2 (query_values_ok c data vs Ev Hn) j ltac:(lia)) as A. pose proof (Hv2 j ltac:(lia)) as B.
    unfold query_value in A, B. destruct (svt_query c); [contradiction | congruence |].
    destruct A as (f & s & l & E1 & ->). destruct B as (f2 & s2 & l2 & E2 & ->). rewrite E1 in E2.
    assert (X : f ++ [s; l] = (f ++ [s]) ++ [l]) by (rewrite <- app_assoc; reflexivity).
    assert (X2 : f2 ++ [s2; l2] = (f2 ++ [s2]) ++ [l2]) by (rewrite <- app_assoc; reflexivity).
    rewrite X, X2 in E2. apply app_inj_tail in E2. destruct E2 as [E2 ->]. apply app_inj_tail in E2. destruct E2 as [_ ->]. reflexivity.
Qed.
Lemma svt_events tn qn k c data out vs bt bq : svt_call tn qn k c data 1 = Ok [out] -> (0 < num_queries c)%nat -> k <> SVT3 ->
  query_values c data = Ok vs -> laplace_scale (threshold_scale k c) = Ok bt ->
  match query_scale k c with Some qs => laplace_scale qs = Ok bq | None => bq = 0 end ->
  forall row, out = row <->
    List.length row = List.length vs /\ possible (Z.to_nat (max_answered_queries c)) row = true /\
    forall j, (j < List.length vs)%nat -> agrees (threshold c + bt * tn 0%nat) (nth j vs 0) (bq * qn 0%nat j) (nth j row NoResponse).
Proof.
  intros H Hn K Ev Et Eq row.
  destruct (call_row tn qn k c data out vs bt bq H Hn Ev Et Eq) as [Hv R].
  rewrite R. rewrite run_rows by (intros q; destruct k; try reflexivity; contradiction).
  rewrite (forall2_nth _ 0 NoResponse), map_length, seq_length, <- Hv.
  split.
  - intros (P & L & A). split; [symmetry; exact L|]. split; [exact P|]. intros j Hj. specialize (A j Hj).
    rewrite (nth_indep _ 0 (nth 0 vs 0 + bq * qn 0%nat 0%nat)) in A by (rewrite map_length, seq_length; exact Hj).
    rewrite (map_nth (fun j => nth j vs 0 + bq * qn 0%nat j)), seq_nth in A by exact Hj. cbn [Nat.add] in A.
    destruct (nth j row NoResponse); cbn [agrees] in *; try lra; exact A.
  - intros (L & P & A). split; [exact P|]. split; [symmetry; exact L|]. intros j Hj. specialize (A j Hj).
    rewrite (nth_indep _ 0 (nth 0 vs 0 + bq * qn 0%nat 0%nat)) by (rewrite map_length, seq_length; exact Hj).
    rewrite (map_nth (fun j => nth j vs 0 + bq * qn 0%nat j)), seq_nth by exact Hj. cbn [Nat.add].
    destruct (nth j row NoResponse); cbn [agrees] in *; try lra; exact A.
Qed.

(** SVT5 adds no noise to the queries. *)
Lemma nth_repeat_lt {A} (x d : A) n j : (j < n)%nat -> nth j (repeat x n) d = x.
Proof. intros H. rewrite (nth_indep _ d x) by (rewrite repeat_length; exact H). apply nth_repeat. Qed.
Lemma possible_row n a : (0 < a)%nat -> possible a (repeat BelowThreshold n ++ [AboveThreshold]) = true.
Proof. intros Ha. destruct a as [|a]; [lia|]. induction n; cbn [repeat app possible]; [reflexivity | exact IHn]. Qed.
Lemma revealed lo hi d a b : forall q n t m e, query_values (mkSvt e hi lo QUERY_TYPE_REVEAL_RECORDS n t m) (d ++ [a; b]) = Ok q ->
  q = repeat (clip lo hi b) (n - 1) ++ [clip lo hi a].
Proof.
  intros q n t m e. unfold query_values, reveal_values. cbn [svt_query min_value max_value num_queries].
  rewrite map_app, rev_app_distr. cbn [map rev app]. intros H. injection H as <-. reflexivity.
Qed.
Lemma svt_call_ok tn qn k c data : query_values c data <> Err ValueError -> 0 < svt_epsilon c -> min_value c <= max_value c -> (0 <= max_answered_queries c)%Z ->
  exists vs bt out, query_values c data = Ok vs /\ laplace_scale (threshold_scale k c) = Ok bt /\ svt_call tn qn k c data 1 = Ok out.
Proof.
  intros Hv He Hm Ha. assert (Hv' : exists vs, query_values c data = Ok vs).
  { destruct (query_values c data) as [vs|x] eqn:E; [exists vs; reflexivity|]. exfalso. apply Hv.
    unfold query_values, sum_values, reveal_values in E. destruct (svt_query c); try (injection E as <-; reflexivity); try discriminate.
    destruct (rev (map (clip (min_value c) (max_value c)) data)) as [|? [|? ?]]; try discriminate; injection E as <-; reflexivity. }
  destruct Hv' as [vs Ev]. apply IZR_le in Ha.
  assert (S : forall a b, 0 <= a -> 0 < b -> exists s, laplace_scale (a, b) = Ok s).
  { intros a b A B. unfold laplace_scale. cbn [fst snd]. rewrite Reqb_false by lra. rewrite Rltb_false by (apply div_nonneg; lra). eexists; reflexivity. }
  assert (T : exists bt, laplace_scale (threshold_scale k c) = Ok bt).
  { destruct k; cbn [threshold_scale]; apply S; unfold svt_sensitivity; nra. }
  destruct T as [bt Et].
  assert (Q : match query_scale k c with None => True | Some q => exists s, laplace_scale q = Ok s end).
  { destruct k; cbn [query_scale]; try exact Logic.I; apply S; unfold svt_sensitivity; nra. }
  unfold svt_call, noisy_thresholds, noisy_queries. rewrite Ev, Et. cbn [bind].
  destruct (query_scale k c) as [q|]; [destruct Q as [s ->]|]; cbn [bind]; exists vs, bt; eexists; repeat split.
Qed.
Lemma call_one tn qn k c data out : svt_call tn qn k c data 1 = Ok out -> (0 < num_queries c)%nat -> exists row, out = [row].
Proof. intros H Hn. destruct (call_rows tn qn k c data 1 out H Hn) as (? & _ & _ & _ & _ & ->). cbn [seq map]. eexists; reflexivity. Qed.

Lemma svt5_not_private e n t m : 0 < e -> (2 <= n)%nat -> (0 < m)%Z ->
  exists row a b, a < b /\ 0 < laplace_law 1 b - laplace_law 1 a /\
    forall tn qn,
      (a < tn 0%nat <= b -> svt_call tn qn SVT5 (mkSvt e 1 0 QUERY_TYPE_REVEAL_RECORDS n t m) [0; 1; 0] 1 = Ok [row]) /\
      svt_call tn qn SVT5 (mkSvt e 1 0 QUERY_TYPE_REVEAL_RECORDS n t m) [0; 1] 1 <> Ok [row].
Proof.
  intros He Hn Hm. set (c := mkSvt e 1 0 QUERY_TYPE_REVEAL_RECORDS n t m).
  set (row := repeat BelowThreshold (n - 1) ++ [AboveThreshold]).
  assert (C0 : clip 0 1 0 = 0) by (unfold clip; rewrite Rmax_left, Rmin_left; lra).
  assert (C1 : clip 0 1 1 = 1) by (unfold clip; rewrite Rmax_left, Rmin_left; lra).
  set (bt := 2 * 1 / e). assert (Hbt : 0 < bt) by (unfold bt; apply Rdiv_lt_0_compat; lra).
  exists row, ((0 - t) / bt), ((1 - t) / bt).
  assert (AB : (0 - t) / bt < (1 - t) / bt) by (apply Rmult_lt_compat_r; [apply Rinv_0_lt_compat, Hbt | lra]).
  split; [exact AB|]. split.
  { assert (I : forall x y, x < y -> laplace_law 1 x < laplace_law 1 y).
    { intros x y L. unfold laplace_law. pose proof (exp_increasing (x / 1) (y / 1) ltac:(lra)). pose proof (exp_increasing (- y / 1) (- x / 1) ltac:(lra)).
      assert (X0 : forall z, z < 0 -> exp (z / 1) < 1) by (intros z Hz; apply (Rlt_le_trans _ (exp 0)); [apply exp_increasing; lra | rewrite exp_0; lra]).
      assert (Y0 : forall z, 0 <= z -> exp (- z / 1) <= 1) by (intros z Hz; apply (Rle_trans _ (exp 0)); [apply exp_le; lra | rewrite exp_0; lra]).
      destruct (Rltb_spec x 0), (Rltb_spec y 0); try lra. pose proof (X0 x ltac:(lra)). pose proof (Y0 y ltac:(lra)). lra. }
    pose proof (I _ _ AB). lra. }
  intros tn qn.
  assert (Q : forall d, (2 <= List.length d)%nat -> query_values c d <> Err ValueError).
  { intros d Hd. unfold c, query_values, reveal_values. cbn [svt_query min_value max_value].
    pose proof (rev_length (map (clip 0 1) d)) as L. rewrite map_length in L.
    destruct (rev (map (clip 0 1) d)) as [|? [|? ?]]; cbn [List.length] in L; try lia. discriminate. }
  assert (RL : List.length row = n) by (unfold row; rewrite app_length, repeat_length; cbn [List.length]; lia).
  assert (RN : forall j, (j < n - 1)%nat -> nth j row NoResponse = BelowThreshold).
  { intros j Hj. unfold row. rewrite app_nth1 by (rewrite repeat_length; exact Hj). apply nth_repeat_lt, Hj. }
  assert (RT : nth (n - 1) row NoResponse = AboveThreshold).
  { unfold row. rewrite app_nth2 by (rewrite repeat_length; lia). rewrite repeat_length, Nat.sub_diag. reflexivity. }
  assert (VN : forall (x y : R) j, (j < n - 1)%nat -> nth j (repeat x (n - 1) ++ [y]) 0 = x).
  { intros x y j Hj. rewrite app_nth1 by (rewrite repeat_length; exact Hj). apply nth_repeat_lt, Hj. }
  assert (VT : forall x y : R, nth (n - 1) (repeat x (n - 1) ++ [y]) 0 = y).
  { intros x y. rewrite app_nth2 by (rewrite repeat_length; lia). rewrite repeat_length, Nat.sub_diag. reflexivity. }
  assert (VL : forall x y : R, List.length (repeat x (n - 1) ++ [y]) = n) by (intros; rewrite app_length, repeat_length; cbn [List.length]; lia).
  assert (BT : forall b, laplace_scale (threshold_scale SVT5 c) = Ok b -> b = bt).
  { intros b Eb. destruct (scale_threshold SVT5 c b Eb) as (-> & _). cbn [documented_threshold_scale]. unfold c, bt. cbn [max_value min_value svt_epsilon]. field. lra. }
  assert (NN : (0 < num_queries c)%nat) by (unfold c; cbn [num_queries]; lia).
  split.
  - intros T.
    destruct (svt_call_ok tn qn SVT5 c [0; 1; 0] (Q [0; 1; 0] ltac:(cbn [List.length]; lia)) He ltac:(unfold c; cbn [min_value max_value]; lra) ltac:(unfold c; cbn [max_answered_queries]; lia)) as (vs & b & out & Ev & Eb & Eo).
    destruct (call_one tn qn SVT5 c _ out Eo NN) as [r ->]. rewrite Eo. f_equal. f_equal.
    apply (svt_events tn qn SVT5 c _ r vs b 0 Eo NN ltac:(discriminate) Ev Eb eq_refl row).
    pose proof (revealed 0 1 [0] 1 0 vs n t m e Ev) as ->. rewrite C0, C1, VL. rewrite (BT b Eb).
    split; [exact RL|]. split; [apply possible_row; unfold c; cbn [max_answered_queries]; lia|].
    assert (T1 : 0 < t + bt * tn 0%nat <= 1).
    { destruct T as [T1 T2]. apply (Rmult_lt_compat_r bt _ _ Hbt) in T1. apply (Rmult_le_compat_r bt _ _ (Rlt_le _ _ Hbt)) in T2.
      unfold Rdiv in T1, T2. rewrite Rmult_assoc, Rinv_l in T1, T2 by lra. lra. }
    intros j Hj. destruct (Nat.eq_dec j (n - 1)) as [->|Nj].
    + rewrite RT, VT. cbn [agrees]. unfold c. cbn [threshold]. lra.
    + rewrite RN, VN by lia. cbn [agrees]. unfold c. cbn [threshold]. lra.
  - intros Eo.
    destruct (svt_call_ok tn qn SVT5 c [0; 1] (Q [0; 1] ltac:(cbn [List.length]; lia)) He ltac:(unfold c; cbn [min_value max_value]; lra) ltac:(unfold c; cbn [max_answered_queries]; lia)) as (vs & b & out & Ev & Eb & _).
    destruct (proj1 (svt_events tn qn SVT5 c _ row vs b 0 Eo NN ltac:(discriminate) Ev Eb eq_refl row) eq_refl) as (_ & _ & A).
    pose proof (revealed 0 1 [] 0 1 vs n t m e Ev) as ->. rewrite C0, C1, VL in A.
    pose proof (A 0%nat ltac:(lia)) as A0. rewrite RN, VN in A0 by lia. pose proof (A (n - 1)%nat ltac:(lia)) as A1. rewrite RT, VT in A1.
    cbn [agrees] in A0, A1. unfold c in A0, A1. cbn [threshold] in A0, A1. lra.
Qed.

(** With equal bounds the declared sensitivity of the sum is 0, although another record changes it. *)
Definition sum_config : svt_config := mkSvt 1 1 1 QUERY_TYPE_SUM 1 1 1.
Lemma sum_not_private k tn qn : k <> SVT3 ->
  svt_call tn qn k sum_config [] 1 = Ok [[BelowThreshold]] /\ svt_call tn qn k sum_config [1] 1 = Ok [[AboveThreshold]].
Proof.
  intros K. assert (C1 : clip 1 1 1 = 1) by (unfold clip; rewrite Rmax_left, Rmin_left; lra).
  assert (G : forall d r x, query_values sum_config d = Ok [x] -> possible 1 [r] = true -> agrees 1 x 0 r -> svt_call tn qn k sum_config d 1 = Ok [[r]]).
  { intros d r x Ex P A.
    destruct (svt_call_ok tn qn k sum_config d ltac:(discriminate) ltac:(cbn; lra) ltac:(cbn; lra) ltac:(cbn; lia)) as (vs & b & out & Ev & Eb & Eo).
    destruct (call_one tn qn k sum_config d out Eo ltac:(cbn; lia)) as [r0 ->]. rewrite Eo. f_equal. f_equal.
    assert (B0 : b = 0).
    { destruct (scale_threshold k sum_config b Eb) as (-> & _). destruct k; cbn [documented_threshold_scale]; unfold sum_config; cbn [max_value min_value svt_epsilon max_answered_queries]; field. }
    assert (Q0 : exists q0, match query_scale k sum_config with Some qs => laplace_scale qs = Ok q0 | None => q0 = 0 end /\ q0 = 0).
    { destruct k; cbn [query_scale]; try (exists 0; split; reflexivity); eexists; (split; [unfold laplace_scale; cbn [fst snd svt_epsilon sum_config]; rewrite Reqb_false by lra;
        unfold svt_sensitivity; cbn [max_value min_value sum_config svt_epsilon max_answered_queries]; rewrite Rltb_false by lra; reflexivity | field]). }
    destruct Q0 as (q0 & Eq & ->).
    apply (svt_events tn qn k sum_config d r0 vs b 0 Eo ltac:(cbn; lia) K Ev Eb Eq [r]).
    rewrite Ex in Ev. injection Ev as <-. split; [reflexivity|]. split; [exact P|].
    intros j Hj. cbn [List.length] in Hj. assert (j = 0%nat) as -> by lia. cbn [nth]. subst b. cbn [threshold sum_config].
    destruct r; cbn [agrees] in *; try lra; try exact A. }
  split.
  - apply (G [] BelowThreshold 0); [reflexivity | reflexivity | cbn [agrees]; lra].
  - apply (G [1] AboveThreshold (1 + 0)); [|reflexivity | cbn [agrees]; lra].
    unfold query_values, sum_config, sum_values. cbn [svt_query min_value max_value num_queries rsum repeat]. rewrite C1. reflexivity.
Qed.
