(** Tail bounds for sums of independent draws. *)
From Verif Require Import Base Exn TypesAudit SpecDP SpecAudit ProofHoeffding ProofTailBounds.

Section Sums.
  Context {O : Type} (om : list (O * R)).
  Hypothesis Hom : distribution om.

  Lemma mgf_mean g n : mean om n (fun l => exp (rsum g l)) = expect om (fun o => exp (g o)) ^ n.
  Proof.
    induction n as [|n IH]; cbn [mean pow rsum]; [apply exp_0|].
    rewrite <- IH. unfold expect. rewrite <- rsum_scal_r. apply rsum_ext. intros o _.
    rewrite (mean_ext om n _ (fun l => exp (g (fst o)) * exp (rsum g l))) by (intros; apply exp_plus).
    rewrite mean_scal. ring.
  Qed.
  Lemma expect_exp_pos g : 0 <= expect om (fun o => exp (g o)).
  Proof. apply (expect_nonneg om Hom). intros. apply Rlt_le, exp_pos. Qed.
  Lemma mgf_le g n m : expect om (fun o => exp (g o)) <= exp m -> mean om n (fun l => exp (rsum g l)) <= exp (INR n * m).
  Proof.
    intros H. rewrite mgf_mean, exp_nat_mul. apply pow_incr. split; [apply expect_exp_pos|exact H].
  Qed.
  Lemma markov n (b : list O -> bool) F : (forall l, List.length l = n -> 0 <= F l) ->
    (forall l, List.length l = n -> b l = true -> 1 <= F l) -> mean om n (fun l => indicator (b l)) <= mean om n F.
  Proof.
    intros H0 H1. apply (mean_le om Hom). intros l Hl. specialize (H0 l Hl). specialize (H1 l Hl).
    destruct (b l); cbn [indicator]; [apply H1; reflexivity|exact H0].
  Qed.
  Lemma rsum_shift (g : O -> R) c lam l : rsum (fun o => lam * (g o - c)) l = lam * (rsum g l - INR (List.length l) * c).
  Proof. rewrite rsum_scal, rsum_minus, rsum_const. reflexivity. Qed.

  Lemma mean_le_support n f g : (forall l, List.length l = n -> (forall o, In o l -> In o (map fst om)) -> f l <= g l) ->
    mean om n f <= mean om n g.
  Proof.
    revert f g. induction n as [|n IH]; intros f g H; cbn [mean]; [apply H; [reflexivity|intros o []]|].
    apply rsum_le. intros o Ho. apply Rmult_le_compat_l; [apply Hom; exact Ho|]. apply IH.
    intros l Hl Hin. apply H; [cbn [List.length]; lia|].
    intros o' [ <- |Ho']; [apply in_map; exact Ho|apply Hin; exact Ho'].
  Qed.

  Lemma bernstein_tail g b L n : (forall o, In o om -> g (fst o) - expect om g <= b) -> 0 <= b -> 0 <= L -> (0 < n)%nat ->
    mean om n (fun l => indicator (Rltb (expect om g + (sqrt (2 * var om g * (L / INR n)) + b * (L / INR n) / 3)) (rsum g l / INR n))) <= exp (- L).
  Proof.
    intros Hg Hb HL Hn. assert (HN : 0 < INR n) by (apply lt_0_INR; exact Hn).
    set (m := expect om g). set (V := var om g). assert (HV : 0 <= V) by (apply var_nonneg; exact Hom).
    set (e := L / INR n). assert (He : 0 <= e) by (apply Rmult_le_pos; [exact HL|apply Rlt_le, Rinv_0_lt_compat; exact HN]).
    assert (HLe : INR n * e = L) by (unfold e; field; lra).
    destruct (Req_dec L 0) as [E0|N0].
    { rewrite E0, Ropp_0, exp_0. rewrite <- (mean_const om Hom n 1). apply (mean_le om Hom). intros l _.
      destruct (Rltb _ _); cbn [indicator]; lra. }
    assert (He0 : 0 < e) by (unfold e; apply Rmult_lt_0_compat; [lra|apply Rinv_0_lt_compat; exact HN]).
    set (c := b / 3). assert (Hc : 0 <= c) by (unfold c; lra).
    (* it is enough to find a suitable parameter *)
    assert (Enough : forall lam q, 0 <= lam -> expect om (fun o => exp (lam * (g o - m))) <= exp q ->
        e <= lam * (sqrt (2 * V * e) + b * e / 3) - q ->
        mean om n (fun l => indicator (Rltb (m + (sqrt (2 * V * e) + b * e / 3)) (rsum g l / INR n))) <= exp (- L)).
    { intros lam q Hl Hq Hs. set (t := sqrt (2 * V * e) + b * e / 3) in *.
      apply Rle_trans with (mean om n (fun l => exp (- (INR n * (lam * t))) * exp (rsum (fun o => lam * (g o - m)) l))).
      - apply markov; intros l Hl'.
        + apply Rmult_le_pos; apply Rlt_le, exp_pos.
        + destruct (Rltb_spec (m + t) (rsum g l / INR n)) as [H|]; [intros _|discriminate].
          rewrite <- exp_plus. apply Rle_trans with (exp 0); [rewrite exp_0; lra|]. apply exp_le.
          rewrite rsum_shift, Hl'.
          assert (INR n * (m + t) <= rsum g l).
          { replace (rsum g l) with (INR n * (rsum g l / INR n)) by (field; lra). apply Rmult_le_compat_l; lra. }
          assert (lam * (INR n * (m + t)) <= lam * rsum g l) by (apply Rmult_le_compat_l; assumption). lra.
      - rewrite mean_scal. apply Rle_trans with (exp (- (INR n * (lam * t))) * exp (INR n * q)).
        + apply Rmult_le_compat_l; [apply Rlt_le, exp_pos|]. apply mgf_le. exact Hq.
        + rewrite <- exp_plus. apply exp_le. rewrite <- HLe.
          assert (INR n * e <= INR n * (lam * t - q)) by (apply Rmult_le_compat_l; lra). lra. }
    destruct (Req_dec V 0) as [EV|NV].
    - rewrite EV. rewrite EV in Enough.
      assert (Hz : forall lam, expect om (fun o => exp (lam * (g o - m))) <= 1).
      { intros lam. rewrite <- (expect_const om Hom 1). apply Req_le. unfold expect. apply rsum_ext. intros o Ho.
        assert (Hterm : snd o * ((g (fst o) - m) * (g (fst o) - m)) <= 0).
        { rewrite <- EV. unfold V, var, expect at 1. fold m.
          apply (rsum_In_le (fun o => snd o * ((g (fst o) - m) * (g (fst o) - m)))); [|exact Ho].
          intros a Ha. apply Rmult_le_pos; [apply Hom; exact Ha|apply Rle_0_sqr]. }
        assert (0 <= snd o) by (apply Hom; exact Ho).
        destruct (Req_dec (snd o) 0) as [ -> |Hs]; [ring|].
        assert (g (fst o) - m = 0).
        { apply Rsqr_eq_0. unfold Rsqr. assert (0 <= (g (fst o) - m) * (g (fst o) - m)) by apply Rle_0_sqr. nra. }
        rewrite H0, Rmult_0_r, exp_0. ring. }
      destruct (Req_dec b 0) as [Eb|Nb].
      + rewrite Eb. apply Rle_trans with 0; [|apply Rlt_le, exp_pos].
        apply Rle_trans with (mean om n (fun _ => 0)); [|rewrite (mean_const om Hom); lra]. apply mean_le_support. intros l Hl Hin.
        rewrite Rltb_false; [cbn [indicator]; lra|].
        replace (m + (sqrt (2 * 0 * e) + 0 * e / 3)) with m by (replace (2 * 0 * e) with 0 by ring; rewrite sqrt_0; field).
        assert (rsum g l <= INR n * m); [|apply (Rmult_le_reg_l (INR n)); [exact HN|]; replace (INR n * (rsum g l / INR n)) with (rsum g l) by (field; lra); assumption].
        rewrite <- Hl, <- rsum_const. apply rsum_le. intros o Ho.
        apply Hin, in_map_iff in Ho. destruct Ho as (o' & <- & Ho'). specialize (Hg o' Ho'). fold m in Hg. lra.
      + apply (Enough (1 / c) 0).
        * apply Rlt_le, Rmult_lt_0_compat; [lra|apply Rinv_0_lt_compat; unfold c; lra].
        * rewrite exp_0. apply Hz.
        * replace (2 * 0 * e) with 0 by ring. rewrite sqrt_0. apply Req_le. unfold c. field. lra.
    - assert (HVp : 0 < V) by lra.
      set (w := sqrt (2 * e / V)).
      assert (Hw2 : w * w = 2 * e / V) by (apply sqrt_sqrt; apply Rmult_le_pos; [lra|apply Rlt_le, Rinv_0_lt_compat; lra]).
      assert (Hw : 0 < w) by (apply sqrt_lt_R0; apply Rmult_lt_0_compat; [lra|apply Rinv_0_lt_compat; lra]).
      assert (Es : sqrt (2 * V * e) = V * w).
      { apply sqrt_lem_1; [apply Rmult_le_pos; [apply Rmult_le_pos|]; lra|apply Rmult_le_pos; lra|].
        replace (V * w * (V * w)) with (V * V * (w * w)) by ring. rewrite Hw2. field. lra. }
      assert (Ee : e = V * (w * w) / 2) by (rewrite Hw2; field; lra).
      set (lam := w / (1 + c * w)). assert (Hcw : 0 <= c * w) by (apply Rmult_le_pos; lra).
      assert (Hlc : 1 - lam * b / 3 = / (1 + c * w)) by (unfold lam, c; field; unfold c in Hcw; lra).
      assert (Hlp : 0 <= lam) by (unfold lam; apply Rmult_le_pos; [lra|apply Rlt_le, Rinv_0_lt_compat; lra]).
      apply (Enough lam (lam * lam * V / (2 * (1 - lam * b / 3)))).
      + exact Hlp.
      + apply (bernstein_mgf om Hom g b lam); auto. assert (0 < / (1 + c * w)) by (apply Rinv_0_lt_compat; lra). lra.
      + rewrite Hlc, Es. apply Req_le. rewrite Ee. unfold lam. replace b with (3 * c) by (unfold c; field). field. lra.
  Qed.

  Lemma lower_tail g B s n : (forall o, In o om -> 0 <= g (fst o) <= B) -> 0 <= s -> (0 < n)%nat -> 0 < B * expect om g ->
    mean om n (fun l => indicator (Rltb (rsum g l / INR n) (expect om g - s))) <= exp (- (INR n * (s * s / (2 * (B * expect om g))))).
  Proof.
    intros Hg Hs Hn Hp. assert (HN : 0 < INR n) by (apply lt_0_INR; exact Hn). set (m := expect om g) in *.
    set (lam := s / (B * m)). assert (Hl : 0 <= lam) by (apply Rmult_le_pos; [exact Hs|apply Rlt_le, Rinv_0_lt_compat; exact Hp]).
    apply Rle_trans with (mean om n (fun l => exp (INR n * (lam * (m - s))) * exp (rsum (fun o => - lam * g o) l))).
    - apply markov; intros l Hl'.
      + apply Rmult_le_pos; apply Rlt_le, exp_pos.
      + destruct (Rltb_spec (rsum g l / INR n) (m - s)) as [H|]; [intros _|discriminate].
        rewrite <- exp_plus. apply Rle_trans with (exp 0); [rewrite exp_0; lra|]. apply exp_le. rewrite rsum_scal.
        assert (rsum g l <= INR n * (m - s)).
        { replace (rsum g l) with (INR n * (rsum g l / INR n)) by (field; lra). apply Rmult_le_compat_l; lra. }
        assert (lam * rsum g l <= lam * (INR n * (m - s))) by (apply Rmult_le_compat_l; assumption). lra.
    - rewrite mean_scal.
      apply Rle_trans with (exp (INR n * (lam * (m - s))) * exp (INR n * (- lam * m + lam * lam * B * m / 2))).
      + apply Rmult_le_compat_l; [apply Rlt_le, exp_pos|]. apply mgf_le. apply (lower_mgf om Hom g B lam Hg Hl).
      + rewrite <- exp_plus. apply exp_le. apply Req_le.
        assert (B <> 0 /\ m <> 0) by (split; intros E; rewrite E in Hp; lra). unfold lam. field. tauto.
  Qed.
End Sums.

Lemma hoeffding_two {O1 O2} (om1 : list (O1 * R)) (om2 : list (O2 * R)) g1 g2 a b t n1 n2 :
  distribution om1 -> distribution om2 ->
  (forall o, In o om1 -> a <= g1 (fst o) <= b) -> (forall o, In o om2 -> a <= g2 (fst o) <= b) ->
  a < b -> 0 <= t -> (0 < n1 + n2)%nat ->
  mean om1 n1 (fun l1 => mean om2 n2 (fun l2 => indicator (Rleb
    (INR n1 * expect om1 g1 + INR n2 * expect om2 g2 + INR (n1 + n2) * t) (rsum g1 l1 + rsum g2 l2))))
  <= exp (- (2 * INR (n1 + n2) * (t * t) / ((b - a) * (b - a)))).
Proof.
  intros H1 H2 R1 R2 Hab Ht Hn. assert (HN : 0 < INR (n1 + n2)) by (apply lt_0_INR; exact Hn).
  set (r := b - a). assert (Hr : 0 < r) by (unfold r; lra). set (N := INR (n1 + n2)) in *.
  set (m1 := expect om1 g1). set (m2 := expect om2 g2).
  set (lam := 4 * t / (r * r)). assert (Hrr : 0 < r * r) by nra.
  assert (Hl : 0 <= lam) by (apply Rmult_le_pos; [lra|apply Rlt_le, Rinv_0_lt_compat; exact Hrr]).
  set (K := exp (- (lam * (INR n1 * m1 + INR n2 * m2 + N * t)))).
  apply Rle_trans with (mean om1 n1 (fun l1 => mean om2 n2 (fun l2 => K * exp (rsum (fun o => lam * g1 o) l1) * exp (rsum (fun o => lam * g2 o) l2)))).
  - apply (mean_le om1 H1). intros l1 _. apply (markov om2 H2); intros l2 _.
    + unfold K. repeat apply Rmult_le_pos; apply Rlt_le, exp_pos.
    + destruct (Rleb_spec (INR n1 * m1 + INR n2 * m2 + N * t) (rsum g1 l1 + rsum g2 l2)) as [H|]; [intros _|discriminate].
      unfold K. rewrite <- !exp_plus. apply Rle_trans with (exp 0); [rewrite exp_0; lra|]. apply exp_le. rewrite !rsum_scal.
      assert (lam * (INR n1 * m1 + INR n2 * m2 + N * t) <= lam * (rsum g1 l1 + rsum g2 l2)) by (apply Rmult_le_compat_l; assumption). lra.
  - rewrite (mean_ext om1 n1 _ (fun l1 => (K * mean om2 n2 (fun l2 => exp (rsum (fun o => lam * g2 o) l2))) * exp (rsum (fun o => lam * g1 o) l1))).
    2:{ intros l1 _ _. rewrite mean_scal. ring. }
    rewrite mean_scal.
    assert (B1 := mgf_le om1 H1 (fun o => lam * g1 o) n1 _ (hoeffding_mgf om1 H1 g1 a b lam R1 Hl)).
    assert (B2 := mgf_le om2 H2 (fun o => lam * g2 o) n2 _ (hoeffding_mgf om2 H2 g2 a b lam R2 Hl)).
    fold m1 r in B1. fold m2 r in B2.
    eapply Rle_trans.
    { rewrite Rmult_assoc. apply Rmult_le_compat_l; [apply Rlt_le, exp_pos|].
      apply Rmult_le_compat; [|..|exact B2|exact B1].
      - rewrite <- (mean_const om2 H2 n2 0). apply (mean_le om2 H2). intros. apply Rlt_le, exp_pos.
      - rewrite <- (mean_const om1 H1 n1 0). apply (mean_le om1 H1). intros. apply Rlt_le, exp_pos. }
    unfold K. rewrite <- !exp_plus. apply exp_le. apply Req_le. unfold N, lam. rewrite plus_INR. field. lra.
Qed.
