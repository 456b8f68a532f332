(** An empirical Bernstein bound for averages of variables between -2 and 2, and pairs of
    independent samples. *)
From Verif Require Import Base Exn TypesAudit SpecDP SpecAudit ProofHoeffding ProofTailBounds ProofTailSums.

(** * The empirical Bernstein bound *)
Lemma solve_deviation mu r s v d : 0 <= mu <= 2 -> 0 <= r -> 0 <= s -> 0 <= v <= 2 -> d <= 2 - mu ->
  r * v + 14 / 3 * (r * r) < d -> d <= r * s + (2 - mu) * (r * r) / 6 -> s * s - (2 + mu) * r * s <= v * v + d * d -> False.
Proof.
  intros Hm Hr Hs Hv D2 D1 D3 D4. set (m := 2 - mu) in *. assert (Hm' : 0 <= m <= 2) by (unfold m; lra).
  replace (2 + mu) with (4 - m) in D4 by (unfold m; ring).
  assert (Hr0 : 0 < r).
  { destruct Hr as [Hr|E]; [exact Hr|]. rewrite <- E in D1, D3. exfalso. nra. }
  assert (Hrv : 0 <= r * v) by nra.
  assert (R2 : 14 / 3 * (r * r) < m) by lra. set (q := r * r) in *. assert (Hq : 0 < q) by (unfold q; nra).
  set (k := 14 / 3 - m / 6). set (s0 := v + k * r). assert (Hk : 13 / 3 <= k <= 14 / 3) by (unfold k; lra).
  assert (S1 : s0 < s).
  { apply Rmult_lt_reg_l with r; [exact Hr0|]. unfold s0, k. unfold q in *. nra. }
  assert (Hs0 : 0 <= s0) by (unfold s0; nra).
  assert (Hq1 : q < 3 / 7) by lra.
  assert (D5 : d * d <= (r * s + m * q / 6) * (r * s + m * q / 6)).
  { apply Rmult_le_compat; lra. }
  assert (F : s * s * (1 - q) - s * r * ((4 - m) + m * q / 3) - v * v - m * m * (q * q) / 36 <= 0) by (unfold q in *; nra).
  (* the left-hand side grows from s0 on *)
  assert (G : s0 * s0 * (1 - q) - s0 * r * ((4 - m) + m * q / 3) - v * v - m * m * (q * q) / 36 <= 0).
  { assert (0 <= (s - s0) * ((s + s0) * (1 - q) - r * ((4 - m) + m * q / 3))); [|nra].
    apply Rmult_le_pos; [lra|].
    assert (k * r * 2 <= s + s0) by (unfold s0 in *; nra).
    assert (k * r * 2 * (1 - q) <= (s + s0) * (1 - q)) by (apply Rmult_le_compat_r; lra).
    assert (r * ((4 - m) + m * q / 3) <= r * (2 * k * (1 - q))); [|lra].
    apply Rmult_le_compat_l; [lra|]. unfold k. nra. }
  assert (Ek : k = 14 / 3 - m / 6) by reflexivity.
  unfold s0 in G.
  assert (G2 : r * (- (v * v) * r + v * (2 * k - (4 - m) - q * (28 / 3)) + r * (k * (k - (4 - m)) - q * (196 / 9))) <= 0).
  { replace (r * (- (v * v) * r + v * (2 * k - (4 - m) - q * (28 / 3)) + r * (k * (k - (4 - m)) - q * (196 / 9))))
      with ((v + k * r) * (v + k * r) * (1 - q) - (v + k * r) * r * (4 - m + m * q / 3) - v * v - m * m * (q * q) / 36); [exact G|].
    unfold q, k. field. }
  assert (G3 : - (v * v) * r + v * (2 * k - (4 - m) - q * (28 / 3)) + r * (k * (k - (4 - m)) - q * (196 / 9)) <= 0).
  { apply Rmult_le_reg_l with r; [exact Hr0|]. lra. }
  assert (R1 : r < 2 / 3) by (unfold q in *; nra).
  assert (P1 : 0 <= v * (2 * k - (4 - m) - q * (28 / 3) - v * r)).
  { apply Rmult_le_pos; [lra|]. assert (v * r <= 2 * (2 / 3)) by (apply Rmult_le_compat; lra). unfold k. lra. }
  assert (P2 : 0 < k * (k - (4 - m)) - q * (196 / 9)).
  { assert (q * (196 / 9) < 14 / 3 * m) by lra. assert (14 / 3 * m <= k * (k - (4 - m))); [|lra]. unfold k. nra. }
  assert (0 < r * (k * (k - (4 - m)) - q * (196 / 9))) by (apply Rmult_lt_0_compat; assumption).
  lra.
Qed.

(** The sample variance of the code. *)
Definition sample_variance {O} (g : O -> R) (l : list O) : R :=
  let n := INR (List.length l) in Rmax 0 (rsum (fun o => g o * g o) l / n - (rsum g l / n) * (rsum g l / n)).
Definition tolerance (n l v : R) : R := sqrt (2 * v * (l / n)) + 28 / 3 * (l / n).

Section Empirical.
  Context {O : Type} (om : list (O * R)).
  Hypothesis Hom : distribution om.
  Lemma sample_centre (g : O -> R) c l : (0 < List.length l)%nat ->
    rsum (fun o => (g o - c) * (g o - c)) l / INR (List.length l)
    = (rsum (fun o => g o * g o) l / INR (List.length l) - (rsum g l / INR (List.length l)) * (rsum g l / INR (List.length l)))
      + (rsum g l / INR (List.length l) - c) * (rsum g l / INR (List.length l) - c).
  Proof.
    intros Hl. assert (HN : 0 < INR (List.length l)) by (apply lt_0_INR; exact Hl).
    assert (K : rsum (fun o => (g o - c) * (g o - c)) l = rsum (fun o => g o * g o) l - 2 * c * rsum g l + INR (List.length l) * (c * c)).
    { clear Hl HN. induction l as [|a l IH]; [cbn; ring|]. cbn [rsum List.length]. rewrite IH. rewrite S_INR. ring. }
    rewrite K. field. lra.
  Qed.
  Lemma rsum_bound (g : O -> R) a b l : (forall o, a <= g o <= b) -> INR (List.length l) * a <= rsum g l <= INR (List.length l) * b.
  Proof.
    intros H. induction l as [|o l IH]; [cbn; lra|]. cbn [rsum List.length]. rewrite S_INR. specialize (H o). lra.
  Qed.
  Lemma sample_range (g : O -> R) l : (0 < List.length l)%nat -> (forall o, - 2 <= g o <= 2) ->
    - 2 <= rsum g l / INR (List.length l) <= 2 /\ 0 <= sample_variance g l <= 2 * 2 /\
    sample_variance g l = rsum (fun o => g o * g o) l / INR (List.length l) - (rsum g l / INR (List.length l)) * (rsum g l / INR (List.length l)).
  Proof.
    intros Hl H. assert (HN : 0 < INR (List.length l)) by (apply lt_0_INR; exact Hl).
    pose proof (rsum_bound g _ _ l H) as K. pose proof (rsum_bound (fun o => g o * g o) 0 4 l ltac:(intros o; specialize (H o); nra)) as K2.
    assert (A : forall x a b, INR (List.length l) * a <= x <= INR (List.length l) * b -> a <= x / INR (List.length l) <= b).
    { intros x a b [X1 X2]. split; apply Rmult_le_reg_l with (INR (List.length l)); try exact HN;
      replace (INR (List.length l) * (x / INR (List.length l))) with x by (field; lra); assumption. }
    apply A in K, K2.
    assert (N : 0 <= rsum (fun o => g o * g o) l / INR (List.length l) - (rsum g l / INR (List.length l)) * (rsum g l / INR (List.length l))).
    { pose proof (sample_centre g (rsum g l / INR (List.length l)) l Hl) as C. rewrite Rminus_eq_0 in C. rewrite Rmult_0_l, Rplus_0_r in C. rewrite <- C.
      apply Rmult_le_pos; [apply rsum_nonneg; intros; apply Rle_0_sqr|apply Rlt_le, Rinv_0_lt_compat; exact HN]. }
    unfold sample_variance. rewrite Rmax_right by exact N. repeat split; try lra.
    pose proof (Rle_0_sqr (rsum g l / INR (List.length l))) as S. unfold Rsqr in S. lra.
  Qed.

  Lemma empirical_zero (g : O -> R) L n : (forall o, - 2 <= g o <= 2) -> 0 <= expect om g -> 0 <= L -> (0 < n)%nat ->
    mean om n (fun l => indicator (Rltb (expect om g + tolerance (INR n) L (sample_variance g l)) (rsum g l / INR n))) <= 2 * exp (- L).
  Proof.
    intros Hg Hmu HL Hn. set (mu := expect om g) in *. set (V := var om g).
    assert (HN : 0 < INR n) by (apply lt_0_INR; exact Hn).
    assert (Hmu2 : mu <= 2) by (apply (expect_bounds om Hom g (- 2) 2); intros; apply Hg).
    assert (HV : 0 <= V) by (apply var_nonneg; exact Hom).
    set (r := sqrt (2 * (L / INR n))). set (s := sqrt V).
    assert (He : 0 <= L / INR n) by (apply Rmult_le_pos; [exact HL|apply Rlt_le, Rinv_0_lt_compat; exact HN]).
    assert (Er : r * r = 2 * (L / INR n)) by (apply sqrt_sqrt; lra). assert (Hr : 0 <= r) by apply sqrt_pos.
    assert (Es : s * s = V) by (apply sqrt_sqrt; exact HV). assert (Hs : 0 <= s) by apply sqrt_pos.
    set (X := fun o => (g o - mu) * (g o - mu)).
    apply Rle_trans with (mean om n (fun l =>
      indicator (Rltb (mu + (sqrt (2 * V * (L / INR n)) + (2 - mu) * (L / INR n) / 3)) (rsum g l / INR n))
      + indicator (Rltb (rsum X l / INR n) (expect om X - (2 + mu) * r * s)))).
    - apply (mean_le om Hom). intros l Hl. subst n.
      destruct (Rltb_spec (mu + tolerance (INR (List.length l)) L (sample_variance g l)) (rsum g l / INR (List.length l))) as [E|E];
        [|unfold indicator; destruct (Rltb _ _), (Rltb _ _); lra].
      destruct (Rltb_spec (mu + (sqrt (2 * V * (L / INR (List.length l))) + (2 - mu) * (L / INR (List.length l)) / 3)) (rsum g l / INR (List.length l))) as [E1|E1];
        [unfold indicator; destruct (Rltb _ _); lra|].
      destruct (Rltb_spec (rsum X l / INR (List.length l)) (expect om X - (2 + mu) * r * s)) as [E2|E2]; [unfold indicator; lra|].
      exfalso. destruct (sample_range g l Hn Hg) as (Q1 & Q2 & Q3).
      set (v := sqrt (sample_variance g l)). assert (Ev : v * v = sample_variance g l) by (apply sqrt_sqrt; lra).
      assert (Hv : 0 <= v) by apply sqrt_pos.
      apply (solve_deviation mu r s v (rsum g l / INR (List.length l) - mu)); try assumption; try lra.
      + split; [exact Hv|]. apply Rsqr_incr_0_var; [unfold Rsqr|]; lra.
      + unfold tolerance in E. replace (2 * sample_variance g l * (L / INR (List.length l))) with ((2 * (L / INR (List.length l))) * sample_variance g l) in E by ring.
        rewrite sqrt_mult in E by lra. fold r v in E. lra.
      + replace (2 * V * (L / INR (List.length l))) with ((2 * (L / INR (List.length l))) * V) in E1 by ring.
        rewrite sqrt_mult in E1 by lra. fold r s in E1. rewrite Er. lra.
      + change (expect om X) with V in E2. unfold X in E2. rewrite sample_centre in E2 by exact Hn. rewrite Ev, Q3, Es. lra.
    - rewrite mean_plus. replace (2 * exp (- L)) with (exp (- L) + exp (- L)) by ring. apply Rplus_le_compat.
      + apply (bernstein_tail om Hom g (2 - mu) L n); try assumption; [|lra]. intros o _. specialize (Hg (fst o)). fold mu. lra.
      + destruct (Req_dec V 0) as [V0|V0].
        * assert (S0 : s = 0) by (unfold s; rewrite V0; apply sqrt_0).
          apply Rle_trans with (mean om n (fun _ => 0)); [|rewrite (mean_const om Hom); apply Rlt_le, exp_pos].
          apply (mean_le om Hom). intros l Hl. change (expect om X) with V. rewrite V0, S0.
          destruct (Rltb_spec (rsum X l / INR n) (0 - (2 + mu) * r * 0)) as [E|E]; cbn [indicator]; [|lra].
          exfalso. apply Rlt_not_le in E. apply E. rewrite Rmult_0_r, Rminus_0_r.
          apply Rmult_le_pos; [apply rsum_nonneg; intros; apply Rle_0_sqr|apply Rlt_le, Rinv_0_lt_compat; exact HN].
        * assert (HB : 0 < (2 + mu) * (2 + mu)) by nra.
          eapply Rle_trans; [apply (lower_tail om Hom X ((2 + mu) * (2 + mu)) ((2 + mu) * r * s) n)|].
          -- intros o _. specialize (Hg (fst o)). unfold X. split; [apply Rle_0_sqr|]. nra.
          -- apply Rmult_le_pos; [nra|exact Hs].
          -- exact Hn.
          -- change (expect om X) with V. apply Rmult_lt_0_compat; lra.
          -- change (expect om X) with V. apply exp_le. apply Req_le.
             replace (((2 + mu) * r * s) * ((2 + mu) * r * s)) with ((2 + mu) * (2 + mu) * (r * r) * (s * s)) by ring.
             rewrite Er, Es. field. repeat split; try lra.
  Qed.

  Lemma tolerance_mono n L v v' : 0 <= L / n -> v <= v' -> tolerance n L v <= tolerance n L v'.
  Proof. intros H Hv. unfold tolerance. apply Rplus_le_compat_r, sqrt_le_1_alt. nra. Qed.
  Lemma empirical (g : O -> R) M L n : (forall o, - 2 <= g o <= 2) -> 0 <= M -> expect om g <= M -> 0 <= L -> (0 < n)%nat ->
    mean om n (fun l => indicator (Rltb (M + tolerance (INR n) L (sample_variance g l)) (rsum g l / INR n))) <= 2 * exp (- L).
  Proof.
    intros Hg HM Hmu HL Hn. set (mu := expect om g) in *.
    assert (HN : 0 < INR n) by (apply lt_0_INR; exact Hn).
    assert (He : 0 <= L / INR n) by (apply Rmult_le_pos; [exact HL|apply Rlt_le, Rinv_0_lt_compat; exact HN]).
    destruct (Rle_or_lt 0 mu) as [Z|Z].
    - eapply Rle_trans; [|apply (empirical_zero g L n Hg Z HL Hn)]. apply (mean_le om Hom). intros l Hl. fold mu.
      destruct (Rltb_spec (M + tolerance (INR n) L (sample_variance g l)) (rsum g l / INR n)) as [E|E];
      destruct (Rltb_spec (mu + tolerance (INR n) L (sample_variance g l)) (rsum g l / INR n)) as [E'|E']; unfold indicator; lra.
    - set (th := - mu / (2 - mu)).
      assert (Hmu2 : - 2 <= mu) by (apply (expect_bounds om Hom g (- 2) 2); intros; apply Hg).
      assert (Hth : 0 <= th <= 1).
      { unfold th. split; [apply Rmult_le_pos; [lra|apply Rlt_le, Rinv_0_lt_compat; lra]|].
        apply Rmult_le_reg_r with (2 - mu); [lra|]. replace (- mu / (2 - mu) * (2 - mu)) with (- mu) by (field; lra). lra. }
      set (g' := fun o => (1 - th) * g o + th * 2).
      assert (Hg' : forall o, - 2 <= g' o <= 2) by (intros o; specialize (Hg o); unfold g'; nra).
      assert (E0 : expect om g' = 0).
      { unfold g'. rewrite (expect_plus om), (expect_scal om), (expect_const om Hom). fold mu. unfold th. field. lra. }
      eapply Rle_trans; [|apply (empirical_zero g' L n Hg' ltac:(rewrite E0; lra) HL Hn)]. rewrite E0.
      apply (mean_le om Hom). intros l Hl. subst n.
      destruct (sample_range g l Hn Hg) as (Q1 & Q2 & Q3). destruct (sample_range g' l Hn Hg') as (Q1' & Q2' & Q3').
      set (N := INR (List.length l)) in *.
      assert (Sg : rsum g' l / N = (1 - th) * (rsum g l / N) + th * 2).
      { unfold g'. rewrite rsum_plus, rsum_scal, rsum_const. fold N. field. lra. }
      assert (Sv : sample_variance g' l <= sample_variance g l).
      { assert (sample_variance g' l = (1 - th) * (1 - th) * sample_variance g l) as ->.
        2:{ assert ((1 - th) * (1 - th) * sample_variance g l <= 1 * sample_variance g l); [|lra]. apply Rmult_le_compat_r; [apply Q2|]. nra. }
        rewrite Q3', Q3, Sg.
        rewrite (rsum_ext (fun o => g' o * g' o) (fun o => (1 - th) * (1 - th) * (g o * g o) + (2 * (1 - th) * (th * 2) * g o + th * 2 * (th * 2)))) by (intros; unfold g'; ring).
        rewrite !rsum_plus, !rsum_scal, rsum_const. fold N. field. lra. }
      pose proof (tolerance_mono N L _ _ He Sv).
      destruct (Rltb_spec (M + tolerance N L (sample_variance g l)) (rsum g l / N)) as [E|E]; [|unfold indicator; destruct (Rltb _ _); lra].
      destruct (Rltb_spec (0 + tolerance N L (sample_variance g' l)) (rsum g' l / N)) as [E'|E']; unfold indicator; [lra|].
      exfalso. rewrite Sg in E'. nra.
  Qed.

  (** Hoeffding's bound with one sample. *)
  Lemma hoeffding_tail (g : O -> R) M L n : (forall o, - 2 <= g o <= 2) -> expect om g <= M -> 0 <= L -> (0 < n)%nat ->
    mean om n (fun l => indicator (Rltb (M + sqrt (8 * L / INR n)) (rsum g l / INR n))) <= exp (- L).
  Proof.
    intros Hg Hmu HL Hn. assert (HN : 0 < INR n) by (apply lt_0_INR; exact Hn).
    assert (He : 0 <= 8 * L / INR n) by (apply Rmult_le_pos; [lra|apply Rlt_le, Rinv_0_lt_compat; exact HN]).
    pose proof (hoeffding_two om om g g (- 2) 2 (sqrt (8 * L / INR n)) n 0 Hom Hom ltac:(intros; apply Hg) ltac:(intros; apply Hg) ltac:(lra) (sqrt_pos _) ltac:(lia)) as K.
    cbn [mean] in K. rewrite Nat.add_0_r in K. replace (- (2 * INR n * (sqrt (8 * L / INR n) * sqrt (8 * L / INR n)) / ((2 - - 2) * (2 - - 2)))) with (- L) in K.
    2:{ rewrite sqrt_sqrt by exact He. field. lra. }
    eapply Rle_trans; [|exact K]. apply (mean_le om Hom). intros l _. cbn [rsum INR].
    destruct (Rltb_spec (M + sqrt (8 * L / INR n)) (rsum g l / INR n)) as [E|E]; [|match goal with |- _ <= indicator ?b => destruct b; cbn [indicator]; lra end].
    match goal with |- _ <= indicator (Rleb ?a ?b) => destruct (Rleb_spec a b) as [E'|E'] end; cbn [indicator]; [lra|].
    exfalso. assert (Q : INR n * (rsum g l / INR n) = rsum g l) by (field; lra). nra.
  Qed.
End Empirical.

(** * Pairs of independent draws *)
Definition pairs {O1 O2} (om1 : list (O1 * R)) (om2 : list (O2 * R)) : list (O1 * O2 * R) :=
  flat_map (fun o1 => map (fun o2 => ((fst o1, fst o2), snd o1 * snd o2)) om2) om1.
Lemma rsum_pairs {O1 O2} (om1 : list (O1 * R)) (om2 : list (O2 * R)) (F : O1 * O2 -> R -> R) :
  rsum (fun o => F (fst o) (snd o)) (pairs om1 om2)
  = rsum (fun o1 => rsum (fun o2 => F (fst o1, fst o2) (snd o1 * snd o2)) om2) om1.
Proof.
  unfold pairs. induction om1 as [|o1 om1 IH]; [reflexivity|]. cbn [flat_map]. rewrite rsum_app, IH. cbn [rsum]. f_equal.
  clear. induction om2 as [|o2 om2 IH]; [reflexivity|]. cbn [map rsum]. rewrite IH. reflexivity.
Qed.
Lemma pairs_ok {O1 O2} (om1 : list (O1 * R)) (om2 : list (O2 * R)) : distribution om1 -> distribution om2 -> distribution (pairs om1 om2).
Proof.
  intros [H1 S1] [H2 S2]. split.
  - intros o Ho. unfold pairs in Ho. apply in_flat_map in Ho. destruct Ho as (o1 & Ho1 & Ho). apply in_map_iff in Ho.
    destruct Ho as (o2 & <- & Ho2). cbn [snd]. apply Rmult_le_pos; [apply H1|apply H2]; assumption.
  - rewrite (rsum_ext snd (fun o => (fun _ q => q) (fst o) (snd o))) by reflexivity. rewrite (rsum_pairs om1 om2 (fun _ q => q)).
    rewrite (rsum_ext _ (fun o1 => snd o1)); [exact S1|]. intros o1 _. rewrite rsum_scal, S2. ring.
Qed.
Lemma expect_pairs {O1 O2} (om1 : list (O1 * R)) (om2 : list (O2 * R)) (f : O1 * O2 -> R) :
  expect (pairs om1 om2) f = expect om1 (fun a => expect om2 (fun b => f (a, b))).
Proof.
  unfold expect. rewrite (rsum_pairs om1 om2 (fun o q => q * f o)). apply rsum_ext. intros o1 _.
  rewrite <- rsum_scal. apply rsum_ext. intros o2 _. ring.
Qed.
Lemma mean_pairs {O1 O2} (om1 : list (O1 * R)) (om2 : list (O2 * R)) n : distribution om1 -> forall F,
  mean om1 n (fun a => mean om2 n (fun b => F (combine a b))) = mean (pairs om1 om2) n F.
Proof.
  intros H1. induction n as [|n IH]; intros F; [reflexivity|]. cbn [mean]. rewrite (rsum_pairs om1 om2 (fun o q => q * mean (pairs om1 om2) n (fun l => F (o :: l)))).
  apply rsum_ext. intros o1 _. rewrite (mean_sum om1 H1). rewrite <- rsum_scal. apply rsum_ext. intros o2 _.
  rewrite (mean_scal om1). rewrite <- IH. rewrite Rmult_assoc. reflexivity.
Qed.
