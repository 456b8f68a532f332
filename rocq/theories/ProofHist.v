(** Deviation of the histogram of independent draws. *)
From Verif Require Import Base Exn TypesAudit SpecDP SpecAudit ProofHoeffding.

Section Hist.
  Context {O : Type} (om : list (O * R)) (b : O -> Z) (k : nat).
  Hypothesis Hom : distribution om.
  Hypothesis Hb : forall o, (0 <= b o < Z.of_nat k)%Z.
  Local Notation mean := (mean om).

  Definition hit (i : nat) (o : O) : bool := (b o =? Z.of_nat i)%Z.
  Definition cnt (i : nat) (l : list O) : R := INR (List.length (filter (hit i) l)).
  Definition prob (i : nat) : R := rsum (fun o => if hit i (fst o) then snd o else 0) om.

  Lemma cnt_cons i o l : cnt i (o :: l) = indicator (hit i o) + cnt i l.
  Proof.
    unfold cnt, indicator. cbn [filter]. destruct (hit i o); [|ring].
    cbn [List.length]. rewrite S_INR. ring.
  Qed.
  Lemma cnt_app i l1 l2 : cnt i (l1 ++ l2) = cnt i l1 + cnt i l2.
  Proof. unfold cnt. rewrite filter_app, app_length, plus_INR. reflexivity. Qed.
  Lemma cnt_nonneg i l : 0 <= cnt i l.
  Proof. apply pos_INR. Qed.
  Lemma prob_eq i : prob i = rsum (fun o => snd o * indicator (hit i (fst o))) om.
  Proof. apply rsum_ext. intros o _. unfold indicator. destruct (hit i (fst o)); ring. Qed.
  Lemma prob_range i : 0 <= prob i <= 1.
  Proof.
    unfold prob. destruct Hom as [Hp H1]. split.
    - apply rsum_nonneg. intros o Ho. specialize (Hp o Ho). destruct (hit i (fst o)); lra.
    - rewrite <- H1. apply rsum_le. intros o Ho. specialize (Hp o Ho). destruct (hit i (fst o)); lra.
  Qed.
  Lemma split_one (F : O * R -> R) (g h : R) i :
    (forall o, In o om -> F o = snd o * (if hit i (fst o) then g else h)) -> rsum F om = prob i * g + (1 - prob i) * h.
  Proof.
    intros Hf. rewrite (rsum_ext _ (fun o => snd o * h + (g - h) * (snd o * indicator (hit i (fst o))))).
    - rewrite rsum_plus, rsum_scal, rsum_scal_r, <- prob_eq. destruct Hom as [_ ->]. ring.
    - intros o Ho. rewrite (Hf o Ho). unfold indicator. destruct (hit i (fst o)); ring.
  Qed.

  Lemma mean_cnt i n : mean n (cnt i) = INR n * prob i.
  Proof.
    induction n as [|n IH]; cbn [SpecAudit.mean]; [unfold cnt; cbn [filter List.length INR]; ring|].
    rewrite (split_one _ (1 + INR n * prob i) (INR n * prob i) i).
    - rewrite S_INR; ring.
    - intros o _. f_equal. rewrite (mean_ext om n _ (fun l => indicator (hit i (fst o)) + cnt i l)) by (intros; apply cnt_cons).
      rewrite mean_plus, mean_const, IH by exact Hom. unfold indicator. destruct (hit i (fst o)); ring.
  Qed.
  Lemma mean_cnt' i n : mean n (fun l => cnt i l) = INR n * prob i.
  Proof. exact (mean_cnt i n). Qed.
  Lemma mean_cnt2 i n : mean n (fun l => cnt i l * cnt i l) = INR n * prob i * (1 - prob i) + (INR n * prob i) * (INR n * prob i).
  Proof.
    induction n as [|n IH]; cbn [SpecAudit.mean]; [unfold cnt; cbn [filter List.length INR]; ring|].
    set (m2 := INR n * prob i * (1 - prob i) + INR n * prob i * (INR n * prob i)) in *.
    rewrite (split_one _ (1 + 2 * (INR n * prob i) + m2) m2 i).
    - rewrite S_INR. unfold m2. ring.
    - intros o _. f_equal.
      rewrite (mean_ext om n _ (fun l => (indicator (hit i (fst o)) * indicator (hit i (fst o)) + 2 * indicator (hit i (fst o)) * cnt i l) + cnt i l * cnt i l))
        by (intros; rewrite cnt_cons; ring).
      rewrite mean_plus, mean_plus, mean_const, mean_scal, IH, mean_cnt' by exact Hom.
      unfold indicator. destruct (hit i (fst o)); ring.
  Qed.
  Definition empty_bin i l : R := indicator (Rleb (cnt i l) 0).
  Lemma mean_empty i n : mean n (empty_bin i) = (1 - prob i) ^ n.
  Proof.
    induction n as [|n IH]; cbn [SpecAudit.mean pow].
    { unfold empty_bin, cnt. cbn [filter List.length INR]. rewrite Rleb_true by lra. reflexivity. }
    rewrite (split_one _ 0 ((1 - prob i) ^ n) i).
    - ring.
    - intros o _. f_equal. rewrite <- IH. destruct (hit i (fst o)) eqn:E.
      + rewrite <- (mean_const om Hom n 0). apply mean_ext. intros l _ _. unfold empty_bin. rewrite cnt_cons, E.
        cbn [indicator]. pose proof (cnt_nonneg i l). rewrite Rleb_false by lra. reflexivity.
      + apply mean_ext. intros l _ _. unfold empty_bin. rewrite cnt_cons, E. cbn [indicator]. rewrite Rplus_0_l. reflexivity.
  Qed.

  (** The square root of a count is not too small. *)
  Lemma sqrt_lower s c : 0 < s -> 0 <= c -> (3 * c / s - c * c / (s * s * s)) / 2 <= sqrt c.
  Proof.
    intros Hs Hc. set (u := sqrt c / s).
    assert (Hu : 0 <= u) by (unfold u; apply Rmult_le_pos; [apply sqrt_pos|apply Rlt_le, Rinv_0_lt_compat; exact Hs]).
    assert (Ec : c = (s * u) * (s * u)) by (unfold u; replace (s * (sqrt c / s)) with (sqrt c) by (field; lra); rewrite sqrt_sqrt; lra).
    assert (Es : sqrt c = s * u) by (unfold u; field; lra).
    rewrite Es. rewrite Ec.
    replace ((3 * (s * u * (s * u)) / s - s * u * (s * u) * (s * u * (s * u)) / (s * s * s)) / 2)
      with (s * ((3 * (u * u) - u * u * (u * u)) / 2)) by (field; lra).
    apply Rmult_le_compat_l; [lra|].
    assert (0 <= u * ((u - 1) * (u - 1) * (u + 2))) by (apply Rmult_le_pos; [exact Hu|apply Rmult_le_pos; [apply Rle_0_sqr|lra]]). lra.
  Qed.
  Lemma mean_sqrt_lower i n : INR n * prob i / sqrt (INR n * prob i + 1) <= mean n (fun l => sqrt (cnt i l)).
  Proof.
    set (m := INR n * prob i). assert (Hm : 0 <= m) by (unfold m; pose proof (prob_range i); pose proof (pos_INR n); nra).
    set (s := sqrt (m + 1)). assert (Hs : 0 < s) by (apply sqrt_lt_R0; lra).
    assert (Hs2 : s * s = m + 1) by (apply sqrt_sqrt; lra).
    apply Rle_trans with (mean n (fun l => 3 / (2 * s) * cnt i l + - / (2 * (s * s * s)) * (cnt i l * cnt i l))).
    - rewrite mean_plus, !mean_scal, mean_cnt', mean_cnt2. fold m.
      assert (Hi : 0 < / (2 * (s * s * s))) by (apply Rinv_0_lt_compat; repeat apply Rmult_lt_0_compat; lra).
      assert (E : m / s = 3 / (2 * s) * m + - / (2 * (s * s * s)) * (m * (m + 1))) by (rewrite <- Hs2; field; lra).
      rewrite E. apply Rplus_le_compat_l. apply Ropp_le_cancel.
      rewrite !Ropp_mult_distr_l_reverse, !Ropp_involutive. apply Rmult_le_compat_l; [lra|].
      pose proof (prob_range i). nra.
    - apply mean_le; [exact Hom|]. intros l _. pose proof (sqrt_lower s (cnt i l) Hs (cnt_nonneg i l)).
      replace (3 / (2 * s) * cnt i l + - / (2 * (s * s * s)) * (cnt i l * cnt i l))
        with ((3 * cnt i l / s - cnt i l * cnt i l / (s * s * s)) / 2) by (field; lra). exact H.
  Qed.

  Lemma pow_le_exp p n : 0 <= p <= 1 -> (1 - p) ^ n <= exp (- (INR n * p)).
  Proof.
    intros Hp. induction n as [|n IH]; [cbn [pow INR]; rewrite Rmult_0_l, Ropp_0, exp_0; lra|].
    cbn [pow]. rewrite S_INR. replace (- ((INR n + 1) * p)) with (- p + - (INR n * p)) by ring. rewrite exp_plus.
    pose proof (exp_ineq1_le (- p)). apply Rmult_le_compat; [lra|apply pow_le; lra|lra|exact IH].
  Qed.
  Lemma exp_neg_sqrt m : 0 <= m -> exp (- m) <= / sqrt (m + 1).
  Proof.
    intros Hm. rewrite exp_Ropp. apply Rinv_le_contravar; [apply sqrt_lt_R0; lra|].
    rewrite <- (sqrt_square (exp m)) by (apply Rlt_le, exp_pos). apply sqrt_le_1_alt.
    pose proof (exp_ineq1_le m). nra.
  Qed.

  (** The expected deviation of a count is at most twice the expected square root of it. *)
  Lemma mean_dev i n : mean n (fun l => Rabs (cnt i l - INR n * prob i)) <= 2 * mean n (fun l => sqrt (cnt i l)).
  Proof.
    set (m := INR n * prob i). pose proof (prob_range i) as Hp.
    assert (Hm : 0 <= m) by (unfold m; pose proof (pos_INR n); nra).
    pose proof (mean_sqrt_lower i n) as Hlow. fold m in Hlow.
    assert (Hs : 0 < sqrt (m + 1)) by (apply sqrt_lt_R0; lra).
    apply Rle_trans with (2 * (m / sqrt (m + 1))); [|lra].
    destruct (Rle_lt_dec m 1) as [Hm1|Hm1].
    - rewrite (mean_ext om n _ (fun l => (cnt i l - m) + 2 * m * empty_bin i l)).
      2:{ intros l _ _. unfold empty_bin, indicator. destruct (Rleb_spec (cnt i l) 0) as [H|H].
          - pose proof (cnt_nonneg i l). rewrite Rabs_left1 by lra. lra.
          - assert (1 <= cnt i l).
            { unfold cnt in *. destruct (List.length (filter (hit i) l)) as [|c]; [cbn [INR] in H; lra|].
              rewrite S_INR. pose proof (pos_INR c). lra. }
            rewrite Rabs_pos_eq by lra. ring. }
      rewrite mean_plus, mean_minus, mean_scal, mean_const, mean_cnt', mean_empty by exact Hom. fold m.
      assert ((1 - prob i) ^ n <= / sqrt (m + 1)).
      { eapply Rle_trans; [apply pow_le_exp; exact Hp|]. apply exp_neg_sqrt. exact Hm. }
      unfold Rdiv. nra.
    - assert (Hr : 0 < sqrt m) by (apply sqrt_lt_R0; lra). assert (Hr2 : sqrt m * sqrt m = m) by (apply sqrt_sqrt; lra).
      apply Rle_trans with (sqrt m).
      + apply Rle_trans with (mean n (fun l => / (2 * sqrt m) * (cnt i l * cnt i l) + (- sqrt m * cnt i l + (sqrt m * m / 2 + sqrt m / 2)))).
        * apply mean_le; [exact Hom|]. intros l _. set (x := cnt i l).
          assert (Hx : Rabs (x - m) <= ((x - m) * (x - m) / sqrt m + sqrt m) / 2).
          { set (y := Rabs (x - m)). assert (Hy : y * y = (x - m) * (x - m)) by (unfold y; rewrite <- Rabs_mult, Rabs_pos_eq; [reflexivity|apply Rle_0_sqr]).
            rewrite <- Hy. assert (0 <= (y - sqrt m) * (y - sqrt m) / sqrt m).
            { apply Rmult_le_pos; [apply Rle_0_sqr|apply Rlt_le, Rinv_0_lt_compat; exact Hr]. }
            replace ((y - sqrt m) * (y - sqrt m) / sqrt m) with (y * y / sqrt m - 2 * y + sqrt m) in H by (field; lra). lra. }
          eapply Rle_trans; [exact Hx|]. right.
          replace ((x - m) * (x - m) / sqrt m) with (x * x / sqrt m - 2 * x * (m / sqrt m) + m * (m / sqrt m)) by (field; lra).
          replace (m / sqrt m) with (sqrt m) by (apply (Rmult_eq_reg_r (sqrt m)); [rewrite Hr2; field; lra|lra]).
          field; lra.
        * rewrite mean_plus, mean_scal, mean_plus, mean_scal, mean_const, mean_cnt', mean_cnt2 by exact Hom. fold m.
          assert (/ (2 * sqrt m) * (m * (1 - prob i) + m * m) <= / (2 * sqrt m) * (m + m * m)).
          { apply Rmult_le_compat_l; [apply Rlt_le, Rinv_0_lt_compat; lra|nra]. }
          assert (E : / (2 * sqrt m) * (m + m * m) = sqrt m / 2 + sqrt m * m / 2) by (apply (Rmult_eq_reg_r (2 * sqrt m)); [transitivity (sqrt m * sqrt m * (1 + m)); [rewrite Hr2|]; field; lra|lra]).
          lra.
      + apply Rmult_le_reg_r with (sqrt (m + 1)); [exact Hs|].
        replace (2 * (m / sqrt (m + 1)) * sqrt (m + 1)) with (2 * m) by (field; lra).
        rewrite <- Hr2 at 3. assert (sqrt (m + 1) <= 2 * sqrt m); [|nra].
        rewrite <- (sqrt_square (2 * sqrt m)) by lra. apply sqrt_le_1_alt. nra.
  Qed.

  (** The excess of the deviation over the sum of the square roots. *)
  Definition excess (n : nat) (l : list O) : R :=
    rsum (fun i => / 2 * Rabs (cnt i l - INR n * prob i) - sqrt (cnt i l)) (seq 0 k).
  Lemma excess_mean n : mean n (excess n) <= 0.
  Proof.
    unfold excess. rewrite (mean_sum om Hom n (fun i l => / 2 * Rabs (cnt i l - INR n * prob i) - sqrt (cnt i l))).
    rewrite <- (rsum_zero (fun _ : nat => 0) (seq 0 k)) by reflexivity. apply rsum_le. intros i _.
    rewrite mean_minus, mean_scal by exact Hom. pose proof (mean_dev i n). lra.
  Qed.
  Lemma sqrt_succ c : 0 <= c -> sqrt c <= sqrt (c + 1) <= sqrt c + 1.
  Proof.
    intros Hc. split; [apply sqrt_le_1_alt; lra|].
    pose proof (sqrt_pos c). pose proof (sqrt_sqrt c Hc).
    rewrite <- (sqrt_square (sqrt c + 1)) by lra. apply sqrt_le_1_alt. nra.
  Qed.
  Lemma excess_differences n : bounded_differences (excess n) 2.
  Proof.
    intros l1 a a' l2. unfold excess.
    set (phi := fun i x => / 2 * Rabs (x - INR n * prob i) - sqrt x).
    set (C := fun i => cnt i l1 + cnt i l2). assert (HC : forall i, 0 <= C i) by (intros i; unfold C; pose proof (cnt_nonneg i l1); pose proof (cnt_nonneg i l2); lra).
    assert (G : forall o, rsum (fun i => phi i (cnt i (l1 ++ o :: l2))) (seq 0 k)
                = rsum (fun i => phi i (C i)) (seq 0 k) + (phi (Z.to_nat (b o)) (C (Z.to_nat (b o)) + 1) - phi (Z.to_nat (b o)) (C (Z.to_nat (b o))))).
    { intros o. set (j := Z.to_nat (b o)). specialize (Hb o).
      rewrite (rsum_ext _ (fun i => phi i (C i) + (if (j =? i)%nat then phi j (C j + 1) - phi j (C j) else 0))).
      - rewrite rsum_plus. f_equal.
        assert (Hj : (0 <= j < k)%nat) by (unfold j; lia).
        assert (Hs : forall q s, rsum (fun i => if (j =? i)%nat then q else 0) (seq s (k)) = if ((s <=? j) && (j <? s + k))%nat%bool then q else 0).
        { intros q. clear. generalize k as k'. induction k' as [|k' IH]; intros s; cbn [seq rsum].
          - destruct (Nat.leb_spec s j), (Nat.ltb_spec j (s + 0)); cbn [andb]; try lia; reflexivity.
          - rewrite IH. destruct (Nat.eqb_spec j s), (Nat.leb_spec (S s) j), (Nat.leb_spec s j), (Nat.ltb_spec j (S s + k')), (Nat.ltb_spec j (s + S k'));
              cbn [andb]; try lia; ring. }
        rewrite Hs. rewrite (proj2 (Nat.leb_le 0 j)), (proj2 (Nat.ltb_lt j (0 + k))) by lia. reflexivity.
      - intros i _. rewrite cnt_app, cnt_cons. unfold hit, indicator.
        destruct (Z.eqb_spec (b o) (Z.of_nat i)) as [E|E]; destruct (Nat.eqb_spec j i) as [E'|E']; try (unfold j in *; lia).
        + subst i. unfold C. replace (cnt j l1 + (1 + cnt j l2)) with (cnt j l1 + cnt j l2 + 1) by ring. ring.
        + unfold C. rewrite Rplus_0_l, Rplus_0_r. reflexivity. }
    change (rsum (fun i => phi i (cnt i (l1 ++ a :: l2))) (seq 0 k) - rsum (fun i => phi i (cnt i (l1 ++ a' :: l2))) (seq 0 k) <= 2).
    rewrite !G.
    assert (B : forall j, - (3/2) <= phi j (C j + 1) - phi j (C j) <= 1/2).
    { intros j. unfold phi. pose proof (sqrt_succ (C j) (HC j)).
      pose proof (Rabs_triang (C j - INR n * prob j) 1). pose proof (Rabs_triang (C j + 1 - INR n * prob j) (-1)).
      replace (C j - INR n * prob j + 1) with (C j + 1 - INR n * prob j) in H0 by ring.
      replace (C j + 1 - INR n * prob j + -1) with (C j - INR n * prob j) in H1 by ring.
      rewrite Rabs_R1 in H0. rewrite (Rabs_left (-1)) in H1 by lra. lra. }
    pose proof (B (Z.to_nat (b a))). pose proof (B (Z.to_nat (b a'))). lra.
  Qed.

  Lemma excess_tail n L : (0 < n)%nat -> 0 <= L ->
    mean n (fun l => indicator (Rleb (4 * sqrt (L * INR n)) (excess n l))) <= exp (- L).
  Proof.
    intros Hn HL. assert (HN : 0 < INR n) by (apply lt_0_INR; exact Hn).
    eapply Rle_trans; [apply (mcdiarmid om Hom (excess n) 2 n (4 * sqrt (L * INR n)) (excess_differences n)); [lra|apply excess_mean| |exact Hn]|].
    - pose proof (sqrt_pos (L * INR n)); lra.
    - apply exp_le. right. f_equal.
      replace (4 * sqrt (L * INR n) * (4 * sqrt (L * INR n))) with (16 * (sqrt (L * INR n) * sqrt (L * INR n))) by ring.
      rewrite sqrt_sqrt by nra. field. lra.
  Qed.
End Hist.
