(** Concentration of functions of independent draws. *)
From Verif Require Import Base Exn TypesAudit SpecDP SpecAudit.

Lemma exp_quad x : 0 <= x <= 1 -> exp x <= 1 + x + x * x.
Proof.
  intros Hx. destruct (Req_dec x 0) as [ -> |Hn]; [rewrite exp_0; lra|].
  assert (L : forall y, 0 <= y <= 1 -> exp y <= 1 + 2 * y).
  { intros y Hy. destruct (Req_dec y 0) as [ -> |Hy0]; [rewrite exp_0; lra|].
    destruct (Req_dec y 1) as [ -> |Hy1]; [pose proof exp_le_3; lra|].
    destruct (MVT_cor2 exp exp 0 y ltac:(lra)) as (c & Ec & Hc); [intros; apply derivable_pt_lim_exp|].
    destruct (MVT_cor2 exp exp y 1 ltac:(lra)) as (d & Ed & Hd); [intros; apply derivable_pt_lim_exp|].
    assert (exp c <= exp d) by (apply exp_le; lra). rewrite exp_0 in Ec. pose proof exp_le_3.
    assert (0 < exp c) by apply exp_pos.
    destruct (Rle_lt_dec (exp c) 2) as [Hc2|Hc2]; [nra|]. exfalso.
    assert ((exp 1 - 1) = exp d * (1 - y) + exp c * (y - 0)) by lra. nra. }
  destruct (MVT_cor2 (fun x => 1 + x + x * x - exp x) (fun x => 1 + 2 * x - exp x) 0 x ltac:(lra)) as (c & Ec & Hc).
  - intros c _. 
    replace (1 + 2 * c - exp c) with (0 + 1 + (1 * c + c * 1) - exp c) by ring.
    apply (derivable_pt_lim_minus (fun x => 1 + x + x * x) exp); [|apply derivable_pt_lim_exp].
    apply (derivable_pt_lim_plus (fun x => 1 + x) (fun x => x * x)).
    + apply (derivable_pt_lim_plus (fun _ => 1) (fun x => x)); [apply derivable_pt_lim_const|apply derivable_pt_lim_id].
    + apply (derivable_pt_lim_mult (fun x => x) (fun x => x)); apply derivable_pt_lim_id.
  - cbv beta in Ec. rewrite exp_0 in Ec. assert (exp c <= 1 + 2 * c) by (apply L; lra). nra.
Qed.

Lemma exp_linear_square x : exp x <= x + exp (x * x).
Proof.
  pose proof (exp_ineq1_le (x * x)).
  destruct (Rle_lt_dec x 0) as [Hx|Hx].
  - assert (E : exp x * exp (- x) = 1) by (rewrite <- exp_plus, Rplus_opp_r, exp_0; reflexivity).
    pose proof (exp_ineq1_le (- x)). pose proof (exp_pos x).
    assert (exp x * (1 - x) <= 1) by nra.
    assert (1 <= (1 + x + x * x) * (1 - x)) by nra. nra.
  - destruct (Rle_lt_dec x 1) as [Hx1|Hx1].
    + pose proof (exp_quad x ltac:(lra)). lra.
    + assert (exp x <= exp (x * x)) by (apply exp_le; nra). lra.
Qed.

Section Mean.
  Context {O : Type} (om : list (O * R)).
  Hypothesis Hom : distribution om.

  Lemma mean_ext n : forall f g, (forall l, List.length l = n -> (forall o, In o l -> In o (map fst om)) -> f l = g l) -> mean om n f = mean om n g.
  Proof.
    induction n as [|n IH]; intros f g H; cbn [mean]; [apply H; [reflexivity|intros o []]|].
    apply rsum_ext. intros o Ho. f_equal. apply IH. intros l Hl Hin. apply H; [cbn [List.length]; lia|].
    intros o' [ <- |Ho']; [apply in_map; exact Ho|apply Hin; exact Ho'].
  Qed.
  Lemma mean_le n : forall f g, (forall l, List.length l = n -> f l <= g l) -> mean om n f <= mean om n g.
  Proof.
    induction n as [|n IH]; intros f g H; cbn [mean]; [apply H; reflexivity|].
    apply rsum_le. intros o Ho. apply Rmult_le_compat_l; [apply Hom; exact Ho|]. apply IH.
    intros l Hl. apply H. cbn [List.length]. lia.
  Qed.
  Lemma mean_plus n : forall f g, mean om n (fun l => f l + g l) = mean om n f + mean om n g.
  Proof.
    induction n as [|n IH]; intros f g; cbn [mean]; [reflexivity|].
    rewrite <- rsum_plus. apply rsum_ext. intros o _. rewrite IH. ring.
  Qed.
  Lemma mean_scal n c : forall f, mean om n (fun l => c * f l) = c * mean om n f.
  Proof.
    induction n as [|n IH]; intros f; cbn [mean]; [reflexivity|].
    rewrite <- rsum_scal. apply rsum_ext. intros o _. rewrite IH. ring.
  Qed.
  Lemma mean_const n c : mean om n (fun _ => c) = c.
  Proof.
    induction n as [|n IH]; cbn [mean]; [reflexivity|]. rewrite IH.
    rewrite rsum_scal_r. destruct Hom as [_ ->]. ring.
  Qed.
  Lemma mean_minus n f g : mean om n (fun l => f l - g l) = mean om n f - mean om n g.
  Proof.
    transitivity (mean om n (fun l => f l + -1 * g l)); [apply mean_ext; intros; ring|].
    rewrite mean_plus, mean_scal. ring.
  Qed.
  Lemma mean_sum {I} n (f : I -> list O -> R) (is : list I) :
    mean om n (fun l => rsum (fun i => f i l) is) = rsum (fun i => mean om n (f i)) is.
  Proof.
    induction is as [|i is IH]; cbn [rsum]; [apply mean_const|].
    rewrite (mean_plus n (f i) (fun l => rsum (fun i => f i l) is)), IH. reflexivity.
  Qed.
  Lemma mean_app n m : forall f, mean om (n + m) f = mean om n (fun l1 => mean om m (fun l2 => f (l1 ++ l2))).
  Proof.
    induction n as [|n IH]; intros f; cbn [mean Nat.add]; [reflexivity|].
    apply rsum_ext. intros o _. f_equal. apply (IH (fun l => f (fst o :: l))).
  Qed.
  Lemma mean_bounds n f a b : (forall l, List.length l = n -> a <= f l <= b) -> a <= mean om n f <= b.
  Proof.
    intros H. split.
    - rewrite <- (mean_const n a). apply mean_le. intros l Hl. apply H; exact Hl.
    - rewrite <- (mean_const n b). apply mean_le. intros l Hl. apply H; exact Hl.
  Qed.
  Lemma mean_one f : mean om 1 f = rsum (fun o => snd o * f [fst o]) om.
  Proof. reflexivity. Qed.

  (** The moment generating function of a function with bounded differences. *)
  Lemma hoeffding_step (g : O -> R) lam c :
    (forall a b, g a - g b <= c) ->
    rsum (fun o => snd o * exp (lam * g (fst o))) om
    <= exp (lam * rsum (fun o => snd o * g (fst o)) om + lam * lam * (c * c)).
  Proof.
    intros Hg. set (m := rsum (fun o => snd o * g (fst o)) om).
    assert (Hm : forall o, In o om -> - c <= g (fst o) - m <= c).
    { intros o Ho. 
      assert (Hw : forall x, rsum (fun o' => snd o' * (x - g (fst o'))) om = x - m).
      { intros x. unfold m. rewrite (rsum_ext _ (fun o' => snd o' * x - snd o' * g (fst o'))) by (intros; ring).
        rewrite rsum_minus, rsum_scal_r. destruct Hom as [_ ->]. ring. }
      assert (Hc : rsum (fun o' => snd o' * c) om = c) by (rewrite rsum_scal_r; destruct Hom as [_ ->]; ring).
      split.
      - assert (rsum (fun o' => snd o' * (g (fst o') - g (fst o))) om <= c).
        { rewrite <- Hc. apply rsum_le. intros o' Ho'. apply Rmult_le_compat_l; [apply Hom; exact Ho'|apply Hg]. }
        specialize (Hw (g (fst o))).
        rewrite (rsum_ext _ (fun o' => -1 * (snd o' * (g (fst o) - g (fst o'))))) in H by (intros; ring).
        rewrite rsum_scal in H. lra.
      - rewrite <- (Hw (g (fst o))), <- Hc at 1. apply rsum_le. intros o' Ho'.
        apply Rmult_le_compat_l; [apply Hom; exact Ho'|apply Hg]. }
    rewrite (rsum_ext _ (fun o => exp (lam * m) * (snd o * exp (lam * (g (fst o) - m))))).
    2:{ intros o _. rewrite <- Rmult_assoc, (Rmult_comm (exp (lam * m))), Rmult_assoc, <- exp_plus. f_equal. f_equal. ring. }
    rewrite rsum_scal, exp_plus. apply Rmult_le_compat_l; [apply Rlt_le, exp_pos|].
    apply Rle_trans with (rsum (fun o => snd o * (lam * (g (fst o) - m) + exp (lam * lam * (c * c)))) om).
    - apply rsum_le. intros o Ho. apply Rmult_le_compat_l; [apply Hom; exact Ho|].
      eapply Rle_trans; [apply exp_linear_square|]. apply Rplus_le_compat_l, exp_le.
      replace (lam * (g (fst o) - m) * (lam * (g (fst o) - m))) with (lam * lam * ((g (fst o) - m) * (g (fst o) - m))) by ring.
      apply Rmult_le_compat_l; [nra|]. specialize (Hm o Ho). nra.
    - rewrite (rsum_ext _ (fun o => lam * (snd o * g (fst o)) - lam * m * snd o + exp (lam * lam * (c * c)) * snd o)) by (intros; ring).
      rewrite rsum_plus, rsum_minus, !rsum_scal. fold m. change (fun a : O * R => snd a) with (@snd O R).
      destruct Hom as [_ ->]. lra.
  Qed.

  Definition bounded_differences (f : list O -> R) (c : R) : Prop :=
    forall l1 a b l2, f (l1 ++ a :: l2) - f (l1 ++ b :: l2) <= c.

  Lemma mcdiarmid_mgf lam c n : forall f, bounded_differences f c ->
    mean om n (fun l => exp (lam * f l)) <= exp (lam * mean om n f + INR n * (lam * lam * (c * c))).
  Proof.
    induction n as [|n IH]; intros f Hf; cbn [mean].
    - cbn [INR]. apply exp_le. lra.
    - set (g := fun o => mean om n (fun l => f (o :: l))).
      apply Rle_trans with (rsum (fun o => snd o * (exp (lam * g (fst o)) * exp (INR n * (lam * lam * (c * c))))) om).
      { apply rsum_le. intros o Ho. apply Rmult_le_compat_l; [apply Hom; exact Ho|]. rewrite <- exp_plus.
        apply IH. intros l1 a b l2. apply (Hf (fst o :: l1)). }
      rewrite (rsum_ext _ (fun o => exp (INR n * (lam * lam * (c * c))) * (snd o * exp (lam * g (fst o))))) by (intros; ring).
      rewrite rsum_scal. rewrite S_INR.
      assert (Hg : forall a b, g a - g b <= c).
      { intros a b. unfold g. rewrite <- mean_minus, <- (mean_const n c). apply mean_le.
        intros l _. apply (Hf []). }
      assert (St := hoeffding_step g lam c Hg).
      eapply Rle_trans; [apply Rmult_le_compat_l; [apply Rlt_le, exp_pos|exact St]|].
      rewrite <- exp_plus. apply exp_le. unfold g. lra.
  Qed.

  (** The tail of a function with bounded differences whose mean is not positive. *)
  Lemma mcdiarmid f c n t : bounded_differences f c -> 0 < c -> mean om n f <= 0 -> 0 <= t -> (0 < n)%nat ->
    mean om n (fun l => indicator (Rleb t (f l))) <= exp (- (t * t / (4 * INR n * (c * c)))).
  Proof.
    intros Hf Hc Hm Ht Hn. assert (HN : 0 < INR n) by (apply lt_0_INR; exact Hn).
    set (lam := t / (2 * INR n * (c * c))).
    assert (Hl : 0 <= lam) by (unfold lam; apply Rmult_le_pos; [exact Ht|apply Rlt_le, Rinv_0_lt_compat; repeat apply Rmult_lt_0_compat; lra]).
    apply Rle_trans with (mean om n (fun l => exp (- (lam * t)) * exp (lam * f l))).
    - apply mean_le. intros l _. rewrite <- exp_plus. unfold indicator. destruct (Rleb_spec t (f l)) as [H|H].
      + rewrite <- exp_0. apply exp_le. nra.
      + apply Rlt_le, exp_pos.
    - rewrite mean_scal. eapply Rle_trans; [apply Rmult_le_compat_l; [apply Rlt_le, exp_pos|apply (mcdiarmid_mgf lam c n f Hf)]|].
      rewrite <- exp_plus. apply exp_le.
      assert (lam * mean om n f <= 0) by nra.
      assert (E : - (lam * t) + INR n * (lam * lam * (c * c)) = - (t * t / (4 * INR n * (c * c)))).
      { unfold lam. field. lra. }
      lra.
  Qed.
End Mean.
