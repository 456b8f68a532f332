(** Tail bounds for averages of independent draws: Hoeffding, Bernstein, and the lower tail of
    averages of non-negative variables. *)
From Verif Require Import Base Exn TypesAudit SpecDP SpecAudit ProofHoeffding.

(** * Inequalities for the exponential *)
Lemma grows (f f' : R -> R) x : 0 <= x -> (forall c, 0 <= c <= x -> derivable_pt_lim f c (f' c)) ->
  (forall c, 0 <= c <= x -> 0 <= f' c) -> f 0 <= f x.
Proof.
  intros Hx Hd Hp. destruct (Req_dec x 0) as [ -> |Hn]; [lra|].
  destruct (MVT_cor2 f f' 0 x ltac:(lra)) as (c & Ec & Hc); [intros; apply Hd; lra|].
  assert (0 <= f' c) by (apply Hp; lra). nra.
Qed.

Lemma deriv_eq (f : R -> R) x a b : a = b -> derivable_pt_lim f x a -> derivable_pt_lim f x b.
Proof. intros ->. exact (fun H => H). Qed.

Lemma two_point p h : 0 <= p <= 1 -> 0 <= h -> 1 - p + p * exp h <= exp (p * h + h * h / 8).
Proof.
  intros Hp Hh.
  set (d := fun h => 1 - p + p * exp h).
  assert (Hd : forall c, 0 <= c -> 1 <= d c).
  { intros c Hc. unfold d. assert (1 <= exp c) by (apply Rle_trans with (exp 0); [rewrite exp_0; lra|apply exp_le; lra]). nra. }
  assert (Dd : forall c, derivable_pt_lim d c (p * exp c)).
  { intros c. unfold d. replace (p * exp c) with (0 + (p * exp c)) by ring.
    apply (derivable_pt_lim_plus (fun _ => 1 - p) (fun h => p * exp h)); [apply derivable_pt_lim_const|].
    apply (derivable_pt_lim_scal exp). apply derivable_pt_lim_exp. }
  set (f1 := fun h => p + h / 4 - p * exp h / d h).
  set (f2 := fun c => 1 / 4 - (p * exp c * d c - p * exp c * (p * exp c)) / Rsqr (d c)).
  assert (F1 : forall c, 0 <= c -> 0 <= f1 c).
  { intros c Hc. apply Rle_trans with (f1 0).
    - unfold f1, d. rewrite exp_0. apply Req_le. field; lra.
    - apply (grows f1 f2); [exact Hc| |].
      + intros x Hx. unfold f1, f2.
        apply (derivable_pt_lim_minus (fun h => p + h / 4) (fun h => p * exp h / d h)).
        * replace (1 / 4) with (0 + 1 / 4) by ring. apply (derivable_pt_lim_plus (fun _ => p) (fun h => h / 4)); [apply derivable_pt_lim_const|].
          unfold Rdiv. apply (derivable_pt_lim_ext (fun h => / 4 * h)); [intros; ring|].
          replace (1 * / 4) with (/ 4 * 1) by ring. apply (derivable_pt_lim_scal (fun h => h)). apply derivable_pt_lim_id.
        * apply (derivable_pt_lim_div (fun h => p * exp h) d).
          -- apply (derivable_pt_lim_scal exp). apply derivable_pt_lim_exp.
          -- apply Dd.
          -- specialize (Hd x ltac:(lra)). lra.
      + intros x Hx. unfold f2. specialize (Hd x ltac:(lra)). unfold Rsqr.
        set (u := p * exp x) in *. set (v := d x) in *.
        replace (1 / 4 - (u * v - u * u) / (v * v)) with ((v - 2 * u) * (v - 2 * u) / (4 * (v * v))) by (field; lra).
        apply Rmult_le_pos; [apply Rle_0_sqr|apply Rlt_le, Rinv_0_lt_compat; nra]. }
  set (f := fun h => p * h + h * h / 8 - ln (d h)).
  assert (F : 0 <= f h).
  { apply Rle_trans with (f 0).
    - unfold f, d. rewrite exp_0. replace (1 - p + p * 1) with 1 by ring. rewrite ln_1. lra.
    - apply (grows f f1); [exact Hh| |intros c Hc; apply F1; lra].
      intros c Hc. unfold f, f1. apply (derivable_pt_lim_minus (fun h => p * h + h * h / 8) (fun h => ln (d h))).
      + apply (derivable_pt_lim_plus (fun h => p * h) (fun h => h * h / 8)).
        * apply (deriv_eq _ _ (p * 1)); [ring|]. apply (derivable_pt_lim_scal (fun h => h)). apply derivable_pt_lim_id.
        * apply (derivable_pt_lim_ext (fun h => / 8 * (h * h))); [intros; field|].
          apply (deriv_eq _ _ (/ 8 * (1 * c + c * 1))); [field|]. apply (derivable_pt_lim_scal (fun h => h * h)).
          apply (derivable_pt_lim_mult (fun h => h) (fun h => h)); apply derivable_pt_lim_id.
      + replace (p * exp c / d c) with (/ d c * (p * exp c)) by (unfold Rdiv; ring).
        apply (derivable_pt_lim_comp d ln); [apply Dd|]. apply derivable_pt_lim_ln. specialize (Hd c ltac:(lra)). lra. }
  unfold f in F. fold (d h). rewrite <- (exp_ln (d h)) by (specialize (Hd h Hh); lra). apply exp_le. lra.
Qed.

Lemma exp_upper2 x : x <= 0 -> exp x <= 1 + x + x * x / 2.
Proof.
  intros Hx. set (f := fun y => 1 - y + y * y / 2 - exp (- y)).
  assert (E1 : forall c, 0 <= c -> 0 <= -1 + c + exp (- c)).
  { intros c Hc. pose proof (exp_ineq1_le (- c)). lra. }
  assert (D : forall c, derivable_pt_lim (fun y => exp (- y)) c (- exp (- c))).
  { intros c. replace (- exp (- c)) with (exp (- c) * (- (1))) by ring.
    apply (derivable_pt_lim_comp (fun y => - y) exp); [|apply derivable_pt_lim_exp].
    apply (derivable_pt_lim_opp (fun y => y)). apply derivable_pt_lim_id. }
  assert (F : f 0 <= f (- x)).
  { apply (grows f (fun c => -1 + c + exp (- c))); [lra| |intros; apply E1; lra].
    intros c _. unfold f. replace (-1 + c + exp (- c)) with ((0 - 1) + c - (- exp (- c))) by ring.
    apply (derivable_pt_lim_minus (fun y => 1 - y + y * y / 2) (fun y => exp (- y))); [|apply D].
    apply (derivable_pt_lim_plus (fun y => 1 - y) (fun y => y * y / 2)).
    - apply (derivable_pt_lim_minus (fun _ => 1) (fun y => y)); [apply derivable_pt_lim_const|apply derivable_pt_lim_id].
    - apply (derivable_pt_lim_ext (fun h => / 2 * (h * h))); [intros; field|].
      apply (deriv_eq _ _ (/ 2 * (1 * c + c * 1))); [field|]. apply (derivable_pt_lim_scal (fun h => h * h)).
      apply (derivable_pt_lim_mult (fun h => h) (fun h => h)); apply derivable_pt_lim_id. }
  unfold f in F. rewrite Ropp_0, exp_0, Ropp_involutive in F. nra.
Qed.

Lemma exp_upper3 x : 0 <= x < 3 -> (exp x - 1 - x) * (2 - 2 * x / 3) <= x * x.
Proof.
  intros Hx.
  set (f := fun x => x * x - (exp x - 1 - x) * (2 - 2 * x / 3)).
  set (f1 := fun x => 2 * x - ((exp x - 1) * (2 - 2 * x / 3) + (exp x - 1 - x) * (- (2 / 3)))).
  set (f2 := fun x => 2 / 3 * (1 - exp x + x * exp x)).
  assert (Dl : forall c, derivable_pt_lim (fun x => 2 - 2 * x / 3) c (- (2 / 3))).
  { intros c. replace (- (2 / 3)) with (0 - 2 / 3 * 1) by field.
    apply (derivable_pt_lim_minus (fun _ => 2) (fun x => 2 * x / 3)); [apply derivable_pt_lim_const|].
    apply (derivable_pt_lim_ext (fun x => 2 / 3 * x)); [intros; field|]. apply (derivable_pt_lim_scal (fun h => h)). apply derivable_pt_lim_id. }
  assert (De : forall c, derivable_pt_lim (fun x => exp x - 1) c (exp c)).
  { intros c. replace (exp c) with (exp c - 0) by ring. apply (derivable_pt_lim_minus exp (fun _ => 1)); [apply derivable_pt_lim_exp|apply derivable_pt_lim_const]. }
  assert (De1 : forall c, derivable_pt_lim (fun x => exp x - 1 - x) c (exp c - 1)).
  { intros c. apply (derivable_pt_lim_minus (fun x => exp x - 1) (fun x => x)); [apply De|apply derivable_pt_lim_id]. }
  assert (F1 : forall c, 0 <= c -> 0 <= f1 c).
  { intros c Hc. apply Rle_trans with (f1 0).
    - unfold f1. rewrite exp_0. apply Req_le. field.
    - apply (grows f1 f2); [exact Hc| |].
      + intros y Hy. unfold f1, f2.
        replace (2 / 3 * (1 - exp y + y * exp y)) with (2 * 1 - ((exp y * (2 - 2 * y / 3) + (exp y - 1) * (- (2 / 3))) + ((exp y - 1) * (- (2 / 3))))) by field.
        apply (derivable_pt_lim_minus (fun x => 2 * x) (fun x => (exp x - 1) * (2 - 2 * x / 3) + (exp x - 1 - x) * - (2 / 3))).
        * apply (derivable_pt_lim_scal (fun h => h)). apply derivable_pt_lim_id.
        * apply (derivable_pt_lim_plus (fun x => (exp x - 1) * (2 - 2 * x / 3)) (fun x => (exp x - 1 - x) * - (2 / 3))).
          -- apply (derivable_pt_lim_mult (fun x => exp x - 1) (fun x => 2 - 2 * x / 3)); [apply De|apply Dl].
          -- apply (derivable_pt_lim_ext (fun x => - (2 / 3) * (exp x - 1 - x))); [intros; ring|].
             rewrite (Rmult_comm (exp y - 1)). apply (derivable_pt_lim_scal (fun x => exp x - 1 - x)). apply De1.
      + intros y Hy. unfold f2. pose proof (exp_ineq1_le (- y)). pose proof (exp_pos y).
        assert (E : exp y * exp (- y) = 1) by (rewrite <- exp_plus, Rplus_opp_r, exp_0; reflexivity).
        assert (exp y * (1 - y) <= 1) by nra. nra. }
  assert (F : f 0 <= f x).
  { apply (grows f f1); [lra| |intros; apply F1; lra].
    intros c _. unfold f, f1. apply (derivable_pt_lim_minus (fun x => x * x) (fun x => (exp x - 1 - x) * (2 - 2 * x / 3))).
    - replace (2 * c) with (1 * c + c * 1) by ring. apply (derivable_pt_lim_mult (fun h => h) (fun h => h)); apply derivable_pt_lim_id.
    - apply (derivable_pt_lim_mult (fun x => exp x - 1 - x) (fun x => 2 - 2 * x / 3)); [apply De1|apply Dl]. }
  unfold f in F. rewrite exp_0 in F. nra.
Qed.

Lemma exp_bernstein x y : x <= y -> 0 <= y < 3 -> exp x <= 1 + x + x * x / (2 * (1 - y / 3)).
Proof.
  intros Hxy Hy.
  assert (Hp : 0 < 2 * (1 - y / 3)) by lra.
  destruct (Rle_lt_dec x 0) as [Hx|Hx].
  - eapply Rle_trans; [apply exp_upper2; exact Hx|]. apply Rplus_le_compat_l.
    unfold Rdiv. apply Rmult_le_compat_l; [nra|]. apply Rinv_le_contravar; lra.
  - assert (K := exp_upper3 x ltac:(lra)).
    assert (Hq : 0 < 2 - 2 * x / 3) by lra.
    assert (exp x - 1 - x <= x * x / (2 - 2 * x / 3)).
    { apply (Rmult_le_reg_r (2 - 2 * x / 3)); [exact Hq|]. replace (x * x / (2 - 2 * x / 3) * (2 - 2 * x / 3)) with (x * x) by (field; lra). exact K. }
    assert (x * x / (2 - 2 * x / 3) <= x * x / (2 * (1 - y / 3))).
    { apply (Rmult_le_compat_l (x * x)); [nra|]. apply Rinv_le_contravar; lra. }
    lra.
Qed.

(** * One draw *)
Definition expect {O} (om : list (O * R)) (g : O -> R) : R := rsum (fun o => snd o * g (fst o)) om.

Section Draw.
  Context {O : Type} (om : list (O * R)).
  Hypothesis Hom : distribution om.

  Lemma expect_const c : expect om (fun _ => c) = c.
  Proof. unfold expect. rewrite rsum_scal_r. destruct Hom as [_ ->]. ring. Qed.
  Lemma expect_plus f g : expect om (fun o => f o + g o) = expect om f + expect om g.
  Proof. unfold expect. rewrite <- rsum_plus. apply rsum_ext. intros; ring. Qed.
  Lemma expect_minus f g : expect om (fun o => f o - g o) = expect om f - expect om g.
  Proof. unfold expect. rewrite <- rsum_minus. apply rsum_ext. intros; ring. Qed.
  Lemma expect_scal c f : expect om (fun o => c * f o) = c * expect om f.
  Proof. unfold expect. rewrite <- rsum_scal. apply rsum_ext. intros; ring. Qed.
  Lemma expect_ext f g : (forall o, In o om -> f (fst o) = g (fst o)) -> expect om f = expect om g.
  Proof. intros H. apply rsum_ext. intros o Ho. rewrite (H o Ho). reflexivity. Qed.
  Lemma expect_le f g : (forall o, In o om -> f (fst o) <= g (fst o)) -> expect om f <= expect om g.
  Proof. intros H. apply rsum_le. intros o Ho. apply Rmult_le_compat_l; [apply Hom; exact Ho|apply H; exact Ho]. Qed.
  Lemma expect_nonneg f : (forall o, In o om -> 0 <= f (fst o)) -> 0 <= expect om f.
  Proof. intros H. rewrite <- (expect_const 0). apply expect_le. exact H. Qed.
  Lemma expect_bounds f a b : (forall o, In o om -> a <= f (fst o) <= b) -> a <= expect om f <= b.
  Proof.
    intros H. split; [rewrite <- (expect_const a)|rewrite <- (expect_const b)]; apply expect_le; intros o Ho; apply H; exact Ho.
  Qed.

  (** The variance. *)
  Definition var (g : O -> R) : R := expect om (fun o => (g o - expect om g) * (g o - expect om g)).
  Lemma var_nonneg g : 0 <= var g.
  Proof. apply expect_nonneg. intros. apply Rle_0_sqr. Qed.
  Lemma var_square g : var g = expect om (fun o => g o * g o) - expect om g * expect om g.
  Proof.
    unfold var. set (m := expect om g).
    rewrite (expect_ext _ (fun o => (g o * g o - 2 * m * g o) + m * m)) by (intros; ring).
    rewrite expect_plus, expect_minus, expect_scal, expect_const. fold m. ring.
  Qed.
  (** The bound of Bhatia and Davis. *)
  Lemma var_range g a b : (forall o, In o om -> a <= g (fst o) <= b) -> var g <= (b - expect om g) * (expect om g - a).
  Proof.
    intros H. rewrite var_square. set (m := expect om g).
    assert (K : expect om (fun o => g o * g o) <= expect om (fun o => (a + b) * g o - a * b)).
    { apply expect_le. intros o Ho. specialize (H o Ho). nra. }
    rewrite expect_minus, expect_scal, expect_const in K. fold m in K. nra.
  Qed.

  Lemma hoeffding_mgf g a b lam : (forall o, In o om -> a <= g (fst o) <= b) -> 0 <= lam ->
    expect om (fun o => exp (lam * g o)) <= exp (lam * expect om g + lam * lam * ((b - a) * (b - a)) / 8).
  Proof.
    intros Hg Hl. assert (Hm := expect_bounds g a b Hg). set (m := expect om g) in *.
    destruct (Req_dec a b) as [Eab|Nab].
    - apply Rle_trans with (expect om (fun _ => exp (lam * m))).
      + apply expect_le. intros o Ho. specialize (Hg o Ho). apply exp_le. apply Rmult_le_compat_l; lra.
      + rewrite expect_const. apply exp_le. nra.
    - set (r := b - a). assert (Hr : 0 < r) by (unfold r; lra).
      apply Rle_trans with (expect om (fun o => (b - g o) / r * exp (lam * a) + (g o - a) / r * exp (lam * b))).
      + apply expect_le. intros o Ho. specialize (Hg o Ho). cbn [fst].
        set (x := g (fst o)) in *.
        (* convexity *)
        set (p := (x - a) / r). assert (Hp : 0 <= p <= 1).
        { unfold p. split; [apply Rmult_le_pos; [lra|apply Rlt_le, Rinv_0_lt_compat; lra]|].
          apply (Rmult_le_reg_r r); [lra|]. unfold Rdiv. rewrite Rmult_assoc, Rinv_l by lra. unfold r. lra. }
        replace ((b - x) / r) with (1 - p) by (unfold p, r; field; unfold r in *; lra).
        assert (Ex : lam * x = (1 - p) * (lam * a) + p * (lam * b)) by (unfold p, r; field; unfold r in *; lra).
        assert (T : forall y, exp (lam * x) * (1 + (y - lam * x)) <= exp y).
        { intros y. replace (exp y) with (exp (lam * x) * exp (y - lam * x)) by (rewrite <- exp_plus; f_equal; ring).
          apply Rmult_le_compat_l; [apply Rlt_le, exp_pos|apply exp_ineq1_le]. }
        assert (T1 := T (lam * a)). assert (T2 := T (lam * b)).
        assert (exp (lam * x) = (1 - p) * (exp (lam * x) * (1 + (lam * a - lam * x))) + p * (exp (lam * x) * (1 + (lam * b - lam * x)))).
        { replace ((1 - p) * (exp (lam * x) * (1 + (lam * a - lam * x))) + p * (exp (lam * x) * (1 + (lam * b - lam * x))))
            with (exp (lam * x) * (1 + ((1 - p) * (lam * a) + p * (lam * b) - lam * x))) by ring.
          rewrite <- Ex. ring. }
        nra.
      + set (p := (m - a) / r). assert (Hp : 0 <= p <= 1).
        { unfold p. split; [apply Rmult_le_pos; [lra|apply Rlt_le, Rinv_0_lt_compat; lra]|].
          apply (Rmult_le_reg_r r); [lra|]. unfold Rdiv. rewrite Rmult_assoc, Rinv_l by lra. unfold r. lra. }
        rewrite (expect_ext _ (fun o => (b * exp (lam * a) - a * exp (lam * b)) / r + (exp (lam * b) - exp (lam * a)) / r * g o)).
        2:{ intros o _. field. lra. }
        rewrite expect_plus, expect_const, expect_scal. fold m.
        replace ((b * exp (lam * a) - a * exp (lam * b)) / r + (exp (lam * b) - exp (lam * a)) / r * m)
          with (exp (lam * a) * (1 - p + p * exp (lam * r))).
        2:{ replace (exp (lam * b)) with (exp (lam * a) * exp (lam * r)) by (rewrite <- exp_plus; f_equal; unfold r; ring).
            unfold p. replace b with (a + r) by (unfold r; ring). field. lra. }
        replace (lam * m + lam * lam * (r * r) / 8) with (lam * a + (p * (lam * r) + lam * r * (lam * r) / 8)) by (unfold p; field; lra).
        rewrite exp_plus. apply Rmult_le_compat_l; [apply Rlt_le, exp_pos|]. apply two_point; [exact Hp|]. apply Rmult_le_pos; lra.
  Qed.

  Lemma bernstein_mgf g b lam : (forall o, In o om -> g (fst o) - expect om g <= b) -> 0 <= lam -> 0 <= b -> lam * b < 3 ->
    expect om (fun o => exp (lam * (g o - expect om g))) <= exp (lam * lam * var g / (2 * (1 - lam * b / 3))).
  Proof.
    intros Hg Hl Hb Hlb. set (m := expect om g).
    apply Rle_trans with (expect om (fun o => (1 + lam * (g o - m)) + lam * lam / (2 * (1 - lam * b / 3)) * ((g o - m) * (g o - m)))).
    - apply expect_le. intros o Ho. specialize (Hg o Ho). fold m in Hg.
      eapply Rle_trans; [apply (exp_bernstein _ (lam * b)); [nra|split; [nra|exact Hlb]]|].
      apply Req_le. field. lra.
    - rewrite expect_plus, expect_scal, expect_plus, expect_scal, expect_minus, !expect_const. fold m. fold (var g).
      eapply Rle_trans; [|apply exp_ineq1_le]. apply Req_le. unfold var. fold m. field. lra.
  Qed.

  Lemma lower_mgf g B lam : (forall o, In o om -> 0 <= g (fst o) <= B) -> 0 <= lam ->
    expect om (fun o => exp (- lam * g o)) <= exp (- lam * expect om g + lam * lam * B * expect om g / 2).
  Proof.
    intros Hg Hl. 
    apply Rle_trans with (expect om (fun o => 1 + (- lam + lam * lam * B / 2) * g o)).
    - apply expect_le. intros o Ho. specialize (Hg o Ho).
      eapply Rle_trans; [apply exp_upper2; nra|].
      assert (lam * lam * (g (fst o) * g (fst o)) <= lam * lam * (B * g (fst o))) by (apply Rmult_le_compat_l; nra). nra.
    - rewrite expect_plus, expect_const, expect_scal. eapply Rle_trans; [|apply exp_ineq1_le]. lra.
  Qed.
End Draw.
