(** Renyi moments of sampling without replacement: the expansion around the second law, and the
    bounds of its terms. *)
From Verif Require Import Base XReal SpecDP SpecRenyi SpecRdp ModelRdp ProofDP ProofRenyi ProofRdpMath ProofPoisson ProofObserve ProofTree ProofWorGauss.
Local Open Scope R_scope.
Local Arguments Rltb : simpl never.
Local Arguments Rleb : simpl never.
Local Arguments Reqb : simpl never.

(** ** Elementary inequalities *)
Lemma pow_tangent s t j : 0 <= s -> 0 <= t -> (1 <= j)%nat -> t ^ j + INR j * t ^ (j - 1) * (s - t) <= s ^ j.
Proof.
  intros Hs Ht Hj. destruct Ht as [Ht|<-].
  - set (x := s / t - 1). assert (Ex : s = t * (1 + x)) by (unfold x; field; lra).
    assert (Hx : -1 <= x) by (unfold x; assert (0 <= s / t) by (apply Rmult_le_pos; [lra | left; apply Rinv_0_lt_compat, Ht]); lra).
    pose proof (bernoulli_nat x j Hx) as B. rewrite Ex, Rpow_mult_distr. replace (t * (1 + x) - t) with (t * x) by ring.
    assert (E : INR j * t ^ (j - 1) * (t * x) = t ^ j * (INR j * x)).
    { destruct j as [|j]; [lia|]. replace (S j - 1)%nat with j by lia. cbn [pow]. ring. }
    rewrite E. replace (t ^ j + t ^ j * (INR j * x)) with (t ^ j * (1 + INR j * x)) by ring. apply Rmult_le_compat_l; [apply pow_le; lra | exact B].
  - destruct j as [|[|j]]; [lia | cbn; lra|]. rewrite !pow_i by lia. rewrite Rmult_0_r, Rmult_0_l, Rplus_0_r. apply pow_le, Hs.
Qed.
Lemma div_pos a b : 0 <= a -> 0 <= b -> 0 <= a / b.
Proof. intros Ha [Hb|<-]; [apply Rmult_le_pos; [exact Ha | left; apply Rinv_0_lt_compat, Hb] | unfold Rdiv; rewrite Rinv_0, Rmult_0_r; lra]. Qed.

Lemma rsum_abs {A} (f : A -> R) l : Rabs (rsum f l) <= rsum (fun a => Rabs (f a)) l.
Proof. induction l as [|a l IH]; cbn [rsum]; [rewrite Rabs_R0; lra|]. eapply Rle_trans; [apply Rabs_triang | lra]. Qed.

(** The power of order [j] of the ratio of |u| to [v], weighted with [v]. *)
Definition pw (j : nat) (u v : R) : R := v * (Rabs u / v) ^ j.
Lemma pw_nonneg j u v : 0 <= v -> 0 <= pw j u v.
Proof. intros Hv. apply Rmult_le_pos; [exact Hv|]. apply pow_le, div_pos; [apply Rabs_pos | exact Hv]. Qed.
Lemma pw_jensen {A} (w u v : A -> R) l j : (1 <= j)%nat -> (forall a, In a l -> 0 <= w a /\ 0 <= v a /\ (v a = 0 -> u a = 0)) ->
  pw j (rsum (fun a => w a * u a) l) (rsum (fun a => w a * v a) l) <= rsum (fun a => w a * pw j (u a) (v a)) l.
Proof.
  intros Hj H. set (V := rsum (fun a => w a * v a) l). set (U := Rabs (rsum (fun a => w a * u a) l)).
  assert (V0 : 0 <= V) by (apply rsum_nonneg; intros a Ha; destruct (H a Ha) as (? & ? & _); apply Rmult_le_pos; assumption).
  destruct (Req_dec V 0) as [Z|N].
  - unfold pw at 1. rewrite Z, Rmult_0_l. apply rsum_nonneg. intros a Ha. destruct (H a Ha) as (? & ? & _). apply Rmult_le_pos; [assumption | apply pw_nonneg; assumption].
  - set (t := U / V). assert (Ht : 0 <= t) by (apply div_pos; [apply Rabs_pos | exact V0]).
    assert (L : rsum (fun a => w a * v a * t ^ j + INR j * t ^ (j - 1) * (w a * Rabs (u a) - w a * v a * t)) l <= rsum (fun a => w a * pw j (u a) (v a)) l).
    { apply rsum_le. intros a Ha. destruct (H a Ha) as (Wa & Va & Za). unfold pw. destruct (Req_dec (v a) 0) as [Z|N'].
      - rewrite Z, (Za Z), Rabs_R0. lra.
      - pose proof (pow_tangent (Rabs (u a) / v a) t j (div_pos _ _ (Rabs_pos _) Va) Ht Hj) as T.
        assert (0 <= w a * v a) by (apply Rmult_le_pos; assumption). apply (Rmult_le_compat_l (w a * v a)) in T; [|assumption].
        replace (w a * v a * (t ^ j + INR j * t ^ (j - 1) * (Rabs (u a) / v a - t))) with (w a * v a * t ^ j + INR j * t ^ (j - 1) * (w a * Rabs (u a) - w a * v a * t)) in T by (field; assumption). lra. }
    eapply Rle_trans; [|exact L]. rewrite rsum_plus, rsum_scal, rsum_minus, !rsum_scal_r. fold V.
    assert (A1 : U <= rsum (fun a => w a * Rabs (u a)) l).
    { unfold U. eapply Rle_trans; [apply (rsum_abs (fun a => w a * u a))|]. apply rsum_le. intros a Ha. destruct (H a Ha) as (Wa & _). rewrite Rabs_mult, (Rabs_pos_eq (w a)) by assumption. lra. }
    unfold pw. fold U. fold t. assert (E : U = V * t) by (unfold t; field; assumption).
    assert (0 <= INR j * t ^ (j - 1) * (rsum (fun a => w a * Rabs (u a)) l - V * t)); [|lra].
    apply Rmult_le_pos; [apply Rmult_le_pos; [apply pos_INR | apply pow_le, Ht] | lra].
Qed.

Lemma sum_f_rsum f n : sum_f_R0 f n = rsum f (seq 0 (S n)).
Proof.
  induction n as [|n IH]; [cbn; ring|]. replace (S (S n)) with (S n + 1)%nat by lia. rewrite seq_app, rsum_app. cbn [sum_f_R0]. rewrite IH. cbn [seq rsum fold_right map Nat.add]. ring.
Qed.
Lemma one_plus_pow x n : (1 <= n)%nat -> (1 + x) ^ n = 1 + INR n * x + rsum (fun i => C n i * x ^ i) (seq 2 (n - 1)).
Proof.
  intros Hn. rewrite Rplus_comm, binomial, sum_f_rsum. rewrite (rsum_ext _ (fun i => C n i * x ^ i)) by (intros; rewrite pow1; ring).
  replace (S n) with (2 + (n - 1))%nat by lia. rewrite seq_app, rsum_app. cbn [Nat.add]. f_equal. cbn [seq rsum fold_right map].
  assert (C0 : C n 0 = 1) by (unfold C; rewrite Nat.sub_0_r; cbn [fact INR]; field; apply INR_fact_neq_0).
  assert (C1 : C n 1 = INR n).
  { unfold C. destruct n as [|n]; [lia|]. replace (S n - 1)%nat with n by lia. change (fact (S n)) with (S n * fact n)%nat. change (fact 1) with 1%nat. rewrite mult_INR. change (INR 1) with 1.
    pose proof (INR_fact_neq_0 n). field. assumption. }
  rewrite C0, C1. cbn [pow]. ring.
Qed.

(** ** Pairs of laws as close as Gaussian queries with drift [h] *)
Definition pmom (E : exper) (j : nat) : R := rsum (fun o => prQ E o * (prP E o / prQ E o) ^ j) (outs E).
Definition cmom (E : exper) (l : nat) : R := rsum (fun o => prQ E o * (prP E o / prQ E o - 1) ^ l) (outs E).
Definition close (h : R) (E : exper) : Prop :=
  valid E /\ absolutely_continuous E /\ absolutely_continuous (swap E) /\
  (forall j, (2 <= j)%nat -> pmom E j <= em h j) /\ (forall l, even l -> cmom E l <= central h l 1).

Definition half_lo (i : nat) : nat := (2 * (i / 2))%nat.
Definition half_hi (i : nat) : nat := (2 * ((i + 1) / 2))%nat.
Lemma halves i : (i / 2 + (i + 1) / 2)%nat = i.
Proof.
  destruct (Nat.even i) eqn:E.
  - apply Nat.even_spec in E. destruct E as [k ->]. replace (2 * k / 2)%nat with k by (symmetry; rewrite Nat.mul_comm; apply Nat.div_mul; lia).
    replace ((2 * k + 1) / 2)%nat with k; [lia|]. rewrite Nat.mul_comm, Nat.div_add_l by lia. cbn. lia.
  - assert (O : Nat.odd i = true) by (unfold Nat.odd; rewrite E; reflexivity). apply Nat.odd_spec in O. destruct O as [k ->].
    replace ((2 * k + 1) / 2)%nat with k; [|rewrite Nat.mul_comm, Nat.div_add_l by lia; cbn; lia].
    replace ((2 * k + 1 + 1) / 2)%nat with (k + 1)%nat; [lia|]. replace (2 * k + 1 + 1)%nat with ((k + 1) * 2)%nat by lia. rewrite Nat.div_mul; lia.
Qed.
Definition amom (E : exper) (j : nat) : R := rsum (fun o => pw j (prP E o - prQ E o) (prQ E o)) (outs E).
Lemma ratio_abs p q : 0 <= q -> q <> 0 -> Rabs (p - q) / q = Rabs (p / q - 1).
Proof. intros H N. replace (p / q - 1) with ((p - q) * / q) by (field; exact N). rewrite Rabs_mult, (Rabs_pos_eq (/ q)); [reflexivity | left; apply Rinv_0_lt_compat; lra]. Qed.
Lemma pow_abs_even x l : even l -> Rabs x ^ l = x ^ l.
Proof. intros [k ->]. rewrite !pow_mult, pow2_abs. reflexivity. Qed.
Lemma amom_le E h j : close h E -> amom E j <= sqrt (central h (half_lo j) 1 * central h (half_hi j) 1).
Proof.
  intros (V & _ & _ & _ & HC). destruct V as (Pos & _).
  assert (N : 0 <= amom E j) by (apply rsum_nonneg; intros o Ho; apply pw_nonneg, (Pos o Ho)).
  rewrite <- (sqrt_square (amom E j)) by exact N. apply sqrt_le_1_alt.
  assert (El : forall m, cmom E (2 * m) = rsum (fun o => (sqrt (prQ E o) * Rabs (prP E o / prQ E o - 1) ^ m) * (sqrt (prQ E o) * Rabs (prP E o / prQ E o - 1) ^ m)) (outs E)).
  { intros m. apply rsum_ext. intros o Ho. destruct (Pos o Ho) as [_ Q0]. rewrite <- (pow_abs_even _ (2 * m)) by (exists m; reflexivity).
    replace (2 * m)%nat with (m + m)%nat by lia. rewrite pow_add. rewrite <- (sqrt_sqrt (prQ E o) Q0) at 1. ring. }
  assert (EA : amom E j = rsum (fun o => (sqrt (prQ E o) * Rabs (prP E o / prQ E o - 1) ^ (j / 2)) * (sqrt (prQ E o) * Rabs (prP E o / prQ E o - 1) ^ ((j + 1) / 2))) (outs E)).
  { apply rsum_ext. intros o Ho. destruct (Pos o Ho) as [_ Q0]. unfold pw. destruct (Req_dec (prQ E o) 0) as [->|N'].
    - rewrite sqrt_0. ring.
    - rewrite ratio_abs by assumption. rewrite <- (halves j) at 1. rewrite pow_add. rewrite <- (sqrt_sqrt (prQ E o) Q0) at 1. ring. }
  rewrite EA. eapply Rle_trans; [apply cauchy_schwarz|]. cbv beta. rewrite <- (El (j / 2)%nat), <- (El ((j + 1) / 2)%nat).
  assert (P : forall m, 0 <= cmom E (2 * m)).
  { intros m. rewrite El. apply rsum_nonneg. intros o _. apply Rle_0_sqr. }
  apply Rmult_le_compat; try apply P; apply HC; [exists (j / 2)%nat | exists ((j + 1) / 2)%nat]; reflexivity.
Qed.

(** ** Three laws *)
Section Three.
  Context {O : Type} (os : list O) (h : R).
  Notation ex p q := (mkExper O os p q).
  Definition third (j : nat) (p q r : O -> R) : R := rsum (fun o => pw j (p o - q o) (r o)) os.
  (** The factors of the accountant. *)
  Definition wide (j : nat) : R := 2 * em h j.
  Definition narrow (j : nat) : R := if (j =? 2)%nat then 4 * (em h 2 - 1) else 4 * sqrt (central h (half_lo j) 1 * central h (half_hi j) 1).
  Context (p q r : O -> R) (Hpr : close h (ex p r)) (Hqr : close h (ex q r)) (Hpq : close h (ex p q)) (Hqp : close h (ex q p)).
  Lemma signs o : In o os -> (r o = 0 /\ p o = 0 /\ q o = 0) \/ (0 < r o /\ 0 < p o /\ 0 < q o).
  Proof.
    intros Ho. destruct Hpr as ((Pos & _) & A1 & A2 & _). destruct Hqr as ((Pos' & _) & A3 & A4 & _).
    specialize (Pos o Ho). specialize (Pos' o Ho). cbn in Pos, Pos'. specialize (A1 o Ho). specialize (A2 o Ho). specialize (A3 o Ho). specialize (A4 o Ho). cbn in A1, A2, A3, A4.
    destruct (Req_dec (r o) 0) as [Z|N]; [left; auto|]. right. split; [lra|]. split.
    - destruct (proj1 Pos) as [|Z]; [assumption | exfalso; apply N, A2; auto].
    - destruct (proj1 Pos') as [|Z]; [assumption | exfalso; apply N, A4; auto].
  Qed.
  Lemma third_wide j : (2 <= j)%nat -> third j p q r <= wide j.
  Proof.
    intros Hj. destruct Hpr as (_ & _ & _ & M1 & _). destruct Hqr as (_ & _ & _ & M2 & _). specialize (M1 j Hj). specialize (M2 j Hj).
    unfold wide. apply Rle_trans with (pmom (ex p r) j + pmom (ex q r) j); [|lra].
    unfold third, pmom. cbn [prP prQ outs]. rewrite <- rsum_plus. apply rsum_le. intros o Ho.
    destruct (signs o Ho) as [(Z & _)|(R0 & P0 & Q0)]; [unfold pw; rewrite Z; lra|]. unfold pw.
    rewrite <- Rmult_plus_distr_l. apply Rmult_le_compat_l; [lra|].
    assert (Dp : 0 < p o / r o) by (apply Rdiv_lt_0_compat; assumption). assert (Dq : 0 < q o / r o) by (apply Rdiv_lt_0_compat; assumption).
    assert (I : 0 < / r o) by (apply Rinv_0_lt_compat, R0).
    pose proof (pow_le (p o / r o) j ltac:(lra)). pose proof (pow_le (q o / r o) j ltac:(lra)).
    destruct (Rle_lt_dec (q o) (p o)) as [L|L].
    - apply Rle_trans with ((p o / r o) ^ j); [|lra]. apply pow_incr. split; [apply div_pos; [apply Rabs_pos | lra]|]. apply Rmult_le_compat_r; [lra|]. rewrite Rabs_pos_eq; lra.
    - apply Rle_trans with ((q o / r o) ^ j); [|lra]. apply pow_incr. split; [apply div_pos; [apply Rabs_pos | lra]|]. apply Rmult_le_compat_r; [lra|]. rewrite Rabs_left; lra.
  Qed.
  Lemma central_2 : central h 2 1 = em h 2 - 1.
  Proof. unfold central. cbn [fdiff pow]. unfold em. cbn [INR]. replace (0 * (0 - 1) * h) with 0 by ring. replace (1 * (1 - 1) * h) with 0 by ring. rewrite exp_0. ring. Qed.
  Lemma third_two : third 2 p q r <= 4 * (em h 2 - 1).
  Proof.
    destruct Hpr as (_ & _ & _ & _ & M1). destruct Hqr as (_ & _ & _ & _ & M2). specialize (M1 2%nat ltac:(exists 1%nat; reflexivity)). specialize (M2 2%nat ltac:(exists 1%nat; reflexivity)).
    rewrite central_2 in M1, M2. apply Rle_trans with (2 * cmom (ex p r) 2 + 2 * cmom (ex q r) 2); [|lra].
    unfold third, cmom. cbn [prP prQ outs]. rewrite <- !rsum_scal, <- rsum_plus. apply rsum_le. intros o Ho.
    destruct (signs o Ho) as [(Z & _)|(R0 & P0 & Q0)]; [unfold pw; rewrite Z; lra|]. unfold pw.
    assert (E : (Rabs (p o - q o) / r o) ^ 2 = (p o / r o - 1 - (q o / r o - 1)) ^ 2).
    { rewrite <- (pow2_abs (p o / r o - 1 - _)). f_equal. replace (p o / r o - 1 - (q o / r o - 1)) with ((p o - q o) * / r o) by (field; lra).
      rewrite Rabs_mult, (Rabs_pos_eq (/ r o)) by (left; apply Rinv_0_lt_compat, R0). reflexivity. }
    rewrite E. set (a := p o / r o - 1). set (b := q o / r o - 1). pose proof (pow2_ge_0 (a + b)) as S.
    assert ((a - b) ^ 2 <= 2 * a ^ 2 + 2 * b ^ 2) by (cbn [pow] in *; nra). nra.
  Qed.
  Lemma third_four j : (1 <= j)%nat -> third j p q r <= amom (ex p r) j + amom (ex q r) j + amom (ex p q) j + amom (ex q p) j.
  Proof.
    intros Hj. unfold third, amom. cbn [prP prQ outs]. rewrite <- !rsum_plus. apply rsum_le. intros o Ho.
    destruct (signs o Ho) as [(Z & Zp & Zq)|(R0 & P0 & Q0)]; [unfold pw; rewrite Z, Zp, Zq; lra|].
    pose proof (pw_nonneg j (p o - r o) (r o) ltac:(lra)) as N1. pose proof (pw_nonneg j (q o - r o) (r o) ltac:(lra)) as N2.
    pose proof (pw_nonneg j (p o - q o) (q o) ltac:(lra)) as N3. pose proof (pw_nonneg j (q o - p o) (p o) ltac:(lra)) as N4.
    assert (Mono : forall u u', Rabs u <= Rabs u' -> pw j u (r o) <= pw j u' (r o)).
    { intros u u' L. unfold pw. apply Rmult_le_compat_l; [lra|]. apply pow_incr. split; [apply div_pos; [apply Rabs_pos | lra]|].
      apply Rmult_le_compat_r; [left; apply Rinv_0_lt_compat, R0 | exact L]. }
    assert (Den : forall u v, 0 < v -> v <= r o -> pw j u (r o) <= pw j u v).
    { intros u v Hv L. unfold pw. destruct j as [|k]; [lia|]. cbn [pow].
      replace (r o * (Rabs u / r o * (Rabs u / r o) ^ k)) with (Rabs u * (Rabs u / r o) ^ k) by (field; lra).
      replace (v * (Rabs u / v * (Rabs u / v) ^ k)) with (Rabs u * (Rabs u / v) ^ k) by (field; lra).
      apply Rmult_le_compat_l; [apply Rabs_pos|]. apply pow_incr. split; [apply div_pos; [apply Rabs_pos | lra]|].
      apply Rmult_le_compat_l; [apply Rabs_pos | apply Rinv_le_contravar; assumption]. }
    destruct (Rle_lt_dec (q o) (p o)) as [L|L].
    - destruct (Rle_lt_dec (r o) (q o)) as [A|A].
      + assert (pw j (p o - q o) (r o) <= pw j (p o - r o) (r o)) by (apply Mono; rewrite !Rabs_pos_eq; lra). lra.
      + assert (pw j (p o - q o) (r o) <= pw j (p o - q o) (q o)) by (apply Den; lra). lra.
    - destruct (Rle_lt_dec (r o) (p o)) as [A|A].
      + assert (pw j (p o - q o) (r o) <= pw j (q o - r o) (r o)) by (apply Mono; rewrite Rabs_left1, Rabs_pos_eq; lra). lra.
      + assert (pw j (p o - q o) (r o) <= pw j (p o - q o) (p o)) by (apply Den; lra).
        assert (S : pw j (p o - q o) (p o) = pw j (q o - p o) (p o)) by (unfold pw; rewrite Rabs_minus_sym; reflexivity). lra.
  Qed.
  Lemma third_narrow j : (2 <= j)%nat -> third j p q r <= narrow j.
  Proof.
    intros Hj. unfold narrow. destruct (Nat.eqb_spec j 2) as [->|N]; [apply third_two|].
    eapply Rle_trans; [apply third_four; lia|].
    pose proof (amom_le _ _ j Hpr). pose proof (amom_le _ _ j Hqr). pose proof (amom_le _ _ j Hpq). pose proof (amom_le _ _ j Hqp). lra.
  Qed.
  Lemma third_le j : (2 <= j)%nat -> third j p q r <= Rmin (narrow j) (wide j).
  Proof. intros Hj. apply Rmin_glb; [apply third_narrow | apply third_wide]; exact Hj. Qed.
End Three.

(** ** The mixture *)
Section Mixture.
  Context {O I : Type} (os : list O) (is : list I) (g : R) (r p q : I -> O -> R) (T : nat -> R).
  Context (Hg : 0 < g < 1) (HI : is <> []).
  Context (V : forall i, In i is -> valid (mkExper O os (p i) (r i)) /\ valid (mkExper O os (q i) (r i))).
  Context (AC : forall i o, In i is -> In o os -> (r i o = 0 \/ q i o = 0) -> p i o = 0 /\ q i o = 0).
  Context (HT : forall i j, In i is -> (2 <= j)%nat -> third os j (p i) (q i) (r i) <= T j /\ third os j (p i) (q i) (q i) <= T j).
  Notation n := (INR (length is)).
  Definition avg (f : I -> O -> R) (o : O) : R := / n * rsum (fun i => f i o) is.
  Definition mixP (o : O) : R := (1 - g) * avg r o + g * avg p o.
  Definition mixQ (o : O) : R := (1 - g) * avg r o + g * avg q o.
  Lemma n_pos : 0 < n.
  Proof. apply lt_0_INR. destruct is; [congruence | cbn; lia]. Qed.
  Lemma avg_sum f : (forall i, In i is -> rsum (f i) os = 1) -> rsum (avg f) os = 1.
  Proof.
    intros H. pose proof n_pos. unfold avg. rewrite rsum_scal, rsum_swap, (rsum_ext _ (fun _ => 1)) by exact H. rewrite rsum_const. field. lra.
  Qed.
  Lemma avg_pos f o : (forall i, In i is -> 0 <= f i o) -> 0 <= avg f o.
  Proof. intros H. apply Rmult_le_pos; [left; apply Rinv_0_lt_compat, n_pos | apply rsum_nonneg, H]. Qed.
  Lemma law_p i o : In i is -> In o os -> 0 <= p i o /\ 0 <= q i o /\ 0 <= r i o.
  Proof. intros Hi Ho. destruct (V i Hi) as ((P1 & _) & (P2 & _)). specialize (P1 o Ho). specialize (P2 o Ho). cbn in *. tauto. Qed.
  Lemma mix_laws : valid (mkExper O os mixP mixQ).
  Proof.
    assert (S : forall f, rsum (avg r) os = 1 -> rsum (avg f) os = 1 -> rsum (fun o => (1 - g) * avg r o + g * avg f o) os = 1).
    { intros f A B. rewrite rsum_plus, !rsum_scal, A, B. ring. }
    assert (SP : rsum (avg p) os = 1) by (apply avg_sum; intros i Hi; apply (V i Hi)).
    assert (SQ : rsum (avg q) os = 1) by (apply avg_sum; intros i Hi; apply (V i Hi)).
    assert (SR : rsum (avg r) os = 1) by (apply avg_sum; intros i Hi; apply (V i Hi)).
    split; [|split; cbn; [apply S; assumption | apply S; assumption]].
    intros o Ho. cbn in Ho. unfold mixP, mixQ; cbn.
    pose proof (avg_pos p o ltac:(intros i Hi; apply (law_p i o Hi Ho))). pose proof (avg_pos q o ltac:(intros i Hi; apply (law_p i o Hi Ho))).
    pose proof (avg_pos r o ltac:(intros i Hi; apply (law_p i o Hi Ho))).
    split; apply Rplus_le_le_0_compat; apply Rmult_le_pos; lra.
  Qed.
  (** The components of the second law. *)
  Definition comps : list (I * bool) := map (fun i => (i, true)) is ++ map (fun i => (i, false)) is.
  Definition cw (c : I * bool) : R := if snd c then (1 - g) * / n else g * / n.
  Definition cv (o : O) (c : I * bool) : R := if snd c then r (fst c) o else q (fst c) o.
  Definition cu (o : O) (c : I * bool) : R := p (fst c) o - q (fst c) o.
  Lemma comps_sum f : rsum f comps = rsum (fun i => f (i, true)) is + rsum (fun i => f (i, false)) is.
  Proof. unfold comps. rewrite rsum_app, !rsum_map. reflexivity. Qed.
  Lemma comps_Q o : rsum (fun c => cw c * cv o c) comps = mixQ o.
  Proof.
    rewrite comps_sum. unfold cw, cv, mixQ, avg. cbn [fst snd]. rewrite !rsum_scal. ring.
  Qed.
  Lemma comps_U o : rsum (fun c => cw c * cu o c) comps = avg p o - avg q o.
  Proof.
    rewrite comps_sum. unfold cw, cu, avg. cbn [fst snd]. rewrite !rsum_scal, rsum_minus. ring.
  Qed.
  Lemma comps_in c : In c comps -> In (fst c) is.
  Proof. unfold comps. rewrite in_app_iff, !in_map_iff. intros [(i & <- & H)|(i & <- & H)]; exact H. Qed.
  Lemma cw_pos c : 0 <= cw c.
  Proof. pose proof (Rinv_0_lt_compat _ n_pos). unfold cw. destruct (snd c); apply Rmult_le_pos; lra. Qed.
  Lemma diff_moment j : (2 <= j)%nat -> rsum (fun o => pw j (avg p o - avg q o) (mixQ o)) os <= T j.
  Proof.
    intros Hj. apply Rle_trans with (rsum (fun c => cw c * rsum (fun o => pw j (cu o c) (cv o c)) os) comps).
    - rewrite (rsum_ext (fun c => cw c * _) (fun c => rsum (fun o => cw c * pw j (cu o c) (cv o c)) os)) by (intros; rewrite rsum_scal; reflexivity).
      rewrite (rsum_swap (fun c o => cw c * pw j (cu o c) (cv o c)) comps os). apply rsum_le. intros o Ho. rewrite <- comps_Q, <- comps_U.
      apply pw_jensen; [lia|]. intros c Hc. apply comps_in in Hc. pose proof (law_p _ o Hc Ho) as (P0 & Q0 & R0). split; [apply cw_pos|].
      unfold cv, cu. split; [destruct (snd c); assumption|]. intros Z. destruct (AC (fst c) o Hc Ho) as [-> ->]; [destruct (snd c); auto | lra].
    - apply Rle_trans with (rsum (fun c => cw c * T j) comps).
      + apply rsum_le. intros c Hc. apply comps_in in Hc. apply Rmult_le_compat_l; [apply cw_pos|]. destruct (HT _ j Hc Hj) as [A B]. unfold cu, cv. destruct (snd c); assumption.
      + rewrite rsum_scal_r, comps_sum. unfold cw. cbn [snd]. rewrite !rsum_const. pose proof n_pos. right. field. lra.
  Qed.
  Lemma mix_acont : absolutely_continuous (mkExper O os mixP mixQ).
  Proof.
    intros o Ho Z. cbn in *. pose proof n_pos as N. pose proof (Rinv_0_lt_compat _ N) as NI.
    pose proof (avg_pos q o ltac:(intros i Hi; apply (law_p i o Hi Ho))) as Aq. pose proof (avg_pos r o ltac:(intros i Hi; apply (law_p i o Hi Ho))) as Ar.
    unfold mixQ in Z. assert (Zr : avg r o = 0) by nra. assert (Zq : avg q o = 0) by nra.
    assert (Zi : forall i, In i is -> r i o = 0).
    { intros i Hi. unfold avg in Zr. assert (S : rsum (fun i => r i o) is = 0) by nra.
      pose proof (rsum_In_le (fun i => r i o) is i ltac:(intros k Hk; apply (law_p k o Hk Ho)) Hi) as L. cbn in L. pose proof (law_p i o Hi Ho). lra. }
    unfold mixP. rewrite Zr. unfold avg. rewrite (rsum_zero (fun i => p i o)); [ring|]. intros i Hi. apply (AC i o Hi Ho). left. apply Zi, Hi.
  Qed.
  Lemma mix_power m : (2 <= m)%nat ->
    renyi_moment (mkExper O os mixP mixQ) (INR m) <= 1 + rsum (fun i => C m i * g ^ i * T i) (seq 2 (m - 1)).
  Proof.
    intros Hm. pose proof mix_laws as ML. rewrite <- base_moment by (try exact ML; try exact mix_acont; lia). cbn [outs prP prQ].
    apply Rle_trans with (rsum (fun o => mixQ o + INR m * g * (avg p o - avg q o) + rsum (fun i => C m i * g ^ i * pw i (avg p o - avg q o) (mixQ o)) (seq 2 (m - 1))) os).
    - apply rsum_le. intros o Ho. assert (Q0 : 0 <= mixQ o) by apply (proj1 ML o Ho). destruct (Reqb_spec (mixQ o) 0) as [Z|N].
      + assert (U0 : avg p o - avg q o = 0).
        { pose proof (mix_acont o Ho Z) as ZP. cbn in ZP. unfold mixP in ZP. unfold mixQ in Z.
          assert (A : g * avg p o = g * avg q o) by lra. apply Rmult_eq_reg_l in A; lra. }
        rewrite U0, Z. rewrite (rsum_zero (fun i => _)); [lra|]. intros i Hi. apply in_seq in Hi. unfold pw. ring.
      + set (U := avg p o - avg q o). assert (E : mixP o / mixQ o = 1 + g * (U / mixQ o)).
        { replace (mixP o) with (mixQ o + g * U) by (unfold mixP, mixQ, U; ring). field. exact N. }
        rewrite E, one_plus_pow by lia. rewrite !Rmult_plus_distr_l, Rmult_1_r.
        replace (mixQ o * (INR m * (g * (U / mixQ o)))) with (INR m * g * U) by (field; exact N).
        apply Rplus_le_compat_l. rewrite <- rsum_scal. apply rsum_le. intros i Hi. apply in_seq in Hi.
        rewrite Rpow_mult_distr. unfold pw.
        replace (mixQ o * (C m i * (g ^ i * (U / mixQ o) ^ i))) with (C m i * g ^ i * (mixQ o * (U / mixQ o) ^ i)) by ring.
        apply Rmult_le_compat_l.
        * apply Rmult_le_pos; [rewrite <- log_comb_exp; left; apply exp_pos | apply pow_le; lra].
        * apply Rmult_le_compat_l; [exact Q0|]. eapply Rle_trans; [apply Rle_abs|]. rewrite <- RPow_abs. right. f_equal. unfold Rdiv. rewrite Rabs_mult, (Rabs_pos_eq (/ mixQ o)); [reflexivity | left; apply Rinv_0_lt_compat; lra].
    - rewrite !rsum_plus, rsum_scal, rsum_minus.
      assert (SP : rsum (avg p) os = 1) by (apply avg_sum; intros i Hi; apply (V i Hi)).
      assert (SQ : rsum (avg q) os = 1) by (apply avg_sum; intros i Hi; apply (V i Hi)).
      change (fun o => avg p o) with (avg p). change (fun o => avg q o) with (avg q). change (fun o => mixQ o) with mixQ. rewrite SP, SQ.
      assert (SM : rsum mixQ os = 1) by apply ML. rewrite SM.
      rewrite (rsum_swap (fun o i => C m i * g ^ i * pw i (avg p o - avg q o) (mixQ o)) os (seq 2 (m - 1))).
      apply Rle_trans with (1 + rsum (fun i => rsum (fun o => C m i * g ^ i * pw i (avg p o - avg q o) (mixQ o)) os) (seq 2 (m - 1))); [right; ring|].
      apply Rplus_le_compat_l. apply rsum_le. intros i Hi. apply in_seq in Hi. rewrite rsum_scal. apply Rmult_le_compat_l.
      + apply Rmult_le_pos; [rewrite <- log_comb_exp; left; apply exp_pos | apply pow_le; lra].
      + apply diff_moment. lia.
  Qed.
End Mixture.
