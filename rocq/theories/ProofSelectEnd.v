(** Soundness of the RDP of repeated selection. *)
From Verif Require Import Base XReal Exn SpecDP SpecRenyi SpecRdp SpecSelect ModelRdp ProofDP ProofShape ProofRenyi ProofObserve ProofGaussRdp ProofRefine ProofRdpAtom
  ProofConv ProofGamma ProofSelect ProofSelectRdp ProofSelectLaw.
Local Arguments Rltb : simpl never.
Local Arguments Rleb : simpl never.
Local Arguments Reqb : simpl never.

(** ** Renyi divergence increases with the order *)
Lemma moment_order E a b : valid E -> 1 < a <= b -> Rpower (renyi_moment E a) (b - 1) <= Rpower (renyi_moment E b) (a - 1).
Proof.
  intros V Hab. pose proof (moment_pos E V a) as HA. pose proof (moment_pos E V b) as HB. set (Ma := renyi_moment E a) in *. set (Mb := renyi_moment E b) in *.
  set (th := (a - 1) / (b - 1)). assert (Ht : 0 <= th <= 1).
  { unfold th. split; [apply Rmult_le_pos; [lra | left; apply Rinv_0_lt_compat; lra]|]. apply (Rmult_le_reg_r (b - 1)); [lra|]. unfold Rdiv. rewrite Rmult_assoc, Rinv_l by lra. lra. }
  assert (X : Ma <= Rpower Mb th).
  { destruct V as (V1 & SP & _). apply Rle_trans with (rsum (fun o => Rpower Mb th * (th * (moment_term b (prP E o) (prQ E o) / Mb) + (1 - th) * prP E o)) (outs E)).
    - unfold Ma. rewrite moment_is_terms. apply rsum_le. intros o Io. destruct (V1 o Io) as [P0 Q0]. unfold moment_term. destruct (Reqb_spec (prP E o) 0) as [->|N].
      + unfold Rdiv. rewrite Rmult_0_l, !Rmult_0_r, Rplus_0_l, Rmult_0_r. lra.
      + set (x := Rpower (prP E o / prQ E o) (b - 1)). assert (x0 : 0 < x) by apply Rpower_pos.
        replace (Rpower (prP E o / prQ E o) (a - 1)) with (Rpower x th).
        * pose proof (weighted_mean (x / Mb) th ltac:(apply Rdiv_lt_0_compat; assumption) Ht) as W.
          assert (Y : Rpower (x / Mb) th <= th * (x / Mb) + (1 - th)).
          { unfold Rpower. apply Rle_trans with (exp (ln (th * (x / Mb) + (1 - th)))); [apply exp_le, W|]. rewrite exp_ln; [lra|].
            assert (0 < x / Mb) by (apply Rdiv_lt_0_compat; assumption). destruct (Req_dec th 1) as [->|]; [lra|]. assert (0 <= th * (x / Mb)) by (apply Rmult_le_pos; lra). lra. }
          replace (Rpower x th) with (Rpower Mb th * Rpower (x / Mb) th) by (rewrite Rpower_mult_distr by (try apply Rdiv_lt_0_compat; assumption); f_equal; field; lra).
          apply Rle_trans with (prP E o * (Rpower Mb th * (th * (x / Mb) + (1 - th)))); [|right; unfold Rdiv; ring].
          apply Rmult_le_compat_l; [exact P0|]. apply Rmult_le_compat_l; [left; apply Rpower_pos | exact Y].
        * unfold x. rewrite Rpower_mult. f_equal. unfold th. field. lra.
    - rewrite rsum_scal, rsum_plus, !rsum_scal, SP. right.
      replace (rsum (fun o => moment_term b (prP E o) (prQ E o) / Mb) (outs E)) with (Mb / Mb); [field; lra|].
      unfold Rdiv. rewrite rsum_scal_r. reflexivity. }
  apply Rle_trans with (Rpower (Rpower Mb th) (b - 1)); [apply Rle_Rpower_l; [lra | split; assumption]|].
  rewrite Rpower_mult. right. f_equal. unfold th. field. lra.
Qed.
Lemma renyi_order E a b : valid E -> absolutely_continuous E -> 1 <= a <= b -> renyi E a <= renyi E b.
Proof.
  intros V AC H. destruct (Req_dec a b) as [->|Nb]; [lra|]. destruct (Req_dec a 1) as [->|N1].
  - unfold renyi at 1. rewrite Reqb_true by reflexivity. apply kl_le_renyi; try assumption; lra.
  - unfold renyi. rewrite !Reqb_false by lra. pose proof (moment_order E a b V ltac:(lra)) as M. unfold Rpower in M. apply exp_le_inv2 in M.
    apply (Rmult_le_reg_r ((a - 1) * (b - 1))); [nra|].
    replace (ln (renyi_moment E a) / (a - 1) * ((a - 1) * (b - 1))) with ((b - 1) * ln (renyi_moment E a)) by (field; lra).
    replace (ln (renyi_moment E b) / (b - 1) * ((a - 1) * (b - 1))) with ((a - 1) * ln (renyi_moment E b)) by (field; lra). exact M.
Qed.
Lemma renyi_max E a r : valid E -> (forall o, In o (outs E) -> prP E o <= exp r * prQ E o) -> 1 < a -> renyi E a <= r.
Proof.
  intros V H Ha. assert (AC : absolutely_continuous E).
  { intros o Io Z. specialize (H o Io). rewrite Z, Rmult_0_r in H. destruct (proj1 V o Io). lra. }
  apply renyi_moment_le; try assumption. destruct V as (V1 & SP & _).
  apply Rle_trans with (rsum (fun o => exp ((a - 1) * r) * prP E o) (outs E)); [|rewrite rsum_scal, SP; lra]. rewrite moment_is_terms. apply rsum_le. intros o Io.
  destruct (V1 o Io) as [P0 Q0]. unfold moment_term. destruct (Reqb_spec (prP E o) 0) as [->|N]; [lra|]. rewrite Rmult_comm. apply Rmult_le_compat_r; [exact P0|].
  specialize (H o Io). assert (Qp : 0 < prQ E o). { destruct Q0 as [|e]; [assumption|]. exfalso. rewrite <- e, Rmult_0_r in H. lra. }
  replace (exp ((a - 1) * r)) with (Rpower (exp r) (a - 1)) by (unfold Rpower; rewrite ln_exp; reflexivity).
  apply Rle_Rpower_l; [lra|]. split; [apply Rdiv_lt_0_compat; lra|]. apply (Rmult_le_reg_r (prQ E o)); [assumption|]. unfold Rdiv. rewrite Rmult_assoc, Rinv_l by lra. lra.
Qed.
Lemma bounded_order E a b r : valid E -> order_ok a -> xleb a b = true -> renyi_bounded E b r -> renyi_bounded E a r.
Proof.
  intros V Oa L H. destruct r as [r| | |]; try exact H. destruct H as (AC & H). split; [exact AC|].
  destruct a as [a| | |]; try contradiction; destruct b as [b| | |]; try discriminate; try contradiction; cbn in Oa, L.
  - destruct (Rleb_spec a b); [|discriminate]. destruct H as [H1 H2]. split; [exact Oa|]. eapply Rle_trans; [apply (renyi_order E a b); try assumption; lra | exact H2].
  - split; [exact Oa|]. eapply Rle_trans; [apply (renyi_order E a (a + 1)); try assumption; lra|]. apply renyi_max; try assumption. lra.
  - exact H.
Qed.

(** ** The ratio of weighted probabilities *)
Lemma weighted_ratio E (th : outcome E -> R) g a r : valid E -> 0 < g -> (forall o, In o (outs E) -> g <= th o <= 1) -> 1 < a ->
  renyi_bounded E (Fin a) (Fin r) ->
  rsum (fun o => th o * prP E o) (outs E) <= exp ((1 - 1 / a) * r - ln g / a) * rsum (fun o => th o * prQ E o) (outs E).
Proof.
  intros V Hg Ht Ha (AC & _ & Hr). apply moment_bound in Hr; try assumption. destruct V as (V1 & SP & SQ).
  set (b := rsum (fun o => th o * prP E o) (outs E)). set (al := rsum (fun o => th o * prQ E o) (outs E)).
  assert (LB : forall pr, (forall o, In o (outs E) -> 0 <= pr o) -> rsum pr (outs E) = 1 -> g <= rsum (fun o => th o * pr o) (outs E)).
  { intros pr P S. rewrite <- (Rmult_1_r g), <- S, <- rsum_scal. apply rsum_le. intros o Io. apply Rmult_le_compat_r; [apply P, Io | apply Ht, Io]. }
  assert (B0 : g <= b) by (apply LB; [intros o Io; apply (V1 o Io) | exact SP]). assert (A0 : g <= al) by (apply LB; [intros o Io; apply (V1 o Io) | exact SQ]).
  assert (T : tangent a (b / al) b al <= renyi_moment E a).
  { unfold b at 2, al at 2. rewrite tangent_rsum, moment_is_terms. apply rsum_le. intros o Io. rewrite tangent_scale. destruct (V1 o Io) as [P0 Q0]. destruct (Ht o Io) as [T0 T1].
    pose proof (tangent_term a (b / al) _ _ ltac:(lra) ltac:(apply Rdiv_lt_0_compat; lra) P0 Q0 (AC o Io)) as X. pose proof (term_nonneg a (prP E o) (prQ E o) P0).
    apply Rle_trans with (th o * moment_term a (prP E o) (prQ E o)); [apply Rmult_le_compat_l; lra|]. rewrite <- (Rmult_1_l (moment_term _ _ _)) at 2. apply Rmult_le_compat_r; lra. }
  rewrite tangent_touch in T by lra.
  assert (X : b * Rpower (b / al) (a - 1) <= exp ((a - 1) * r)) by lra.
  unfold Rpower in X. rewrite <- (exp_ln b) in X at 1 by lra. rewrite <- exp_plus in X. apply exp_le_inv2 in X. rewrite ln_div in X by lra.
  assert (LA : ln g <= ln al) by (apply ln_le_mono; lra).
  rewrite <- (exp_ln b), <- (exp_ln al) by lra. rewrite <- exp_plus. apply exp_le.
  apply (Rmult_le_reg_r a); [lra|]. replace (((1 - 1 / a) * r - ln g / a + ln al) * a) with ((a - 1) * r - ln g + a * ln al) by (field; lra). nra.
Qed.
Lemma weighted_ratio_inf E (th : outcome E -> R) r : (forall o, In o (outs E) -> 0 <= th o) -> renyi_bounded E PInf (Fin r) ->
  rsum (fun o => th o * prP E o) (outs E) <= exp r * rsum (fun o => th o * prQ E o) (outs E).
Proof.
  intros Ht (_ & H). rewrite <- rsum_scal. apply rsum_le. intros o Io. specialize (H o Io). specialize (Ht o Io). nra.
Qed.

(** ** Truncated negative binomial *)
Section TnbBound.
  Context (s g : R) (Hs : 0 <= s) (Hg : 0 < g <= 1) (E : exper) (V : valid E) (rank : outcome E -> nat) (N : NoDup (map rank (outs E))).
  Notation lowP := (below rank (prP E) (outs E)).
  Notation lowQ := (below rank (prQ E) (outs E)).
  Lemma tnb_ratio ahat rhat c0 y u : renyi_bounded (swap E) ahat (Fin rhat) ->
    match ahat with Fin a => 1 < a /\ (1 - 1 / a) * rhat - ln g / a <= c0 | PInf => rhat <= c0 | _ => False end ->
    In y (outs E) -> 0 <= u <= 1 -> tnb_f' s g (lowP y + u * prP E y) <= exp ((1 + s) * c0) * tnb_f' s g (lowQ y + u * prQ E y).
  Proof.
    intros B C I U. pose proof V as (V1 & SP & SQ).
    pose proof (below_range rank (prP E) (outs E) y u (fun x Ix => proj1 (V1 x Ix)) SP N I U) as [RP0 RP1].
    pose proof (below_range rank (prQ E) (outs E) y u (fun x Ix => proj2 (V1 x Ix)) SQ N I U) as [RQ0 RQ1].
    destruct (V1 y I) as [Py Qy]. assert (0 <= u * prP E y) by (apply Rmult_le_pos; lra). assert (0 <= u * prQ E y) by (apply Rmult_le_pos; lra).
    assert (X0 : 0 <= lowP y + u * prP E y <= 1) by lra. assert (X0' : 0 <= lowQ y + u * prQ E y <= 1) by lra.
    set (x := lowP y + u * prP E y) in *. set (x' := lowQ y + u * prQ E y) in *.
    pose proof (in_range g Hg x X0) as IX. pose proof (in_range g Hg x' X0') as IX'.
    set (th := fun o => g + (1 - g) * share rank u y o).
    assert (TH : forall o, In o (outs E) -> g <= th o <= 1).
    { intros o _. unfold th. pose proof (share_range rank u y o U) as [S0 S1]. split; [assert (0 <= (1 - g) * share rank u y o) by (apply Rmult_le_pos; lra); lra|].
      assert ((1 - g) * share rank u y o <= (1 - g) * 1) by (apply Rmult_le_compat_l; lra). lra. }
    assert (SUM : forall pr z, rsum pr (outs E) = 1 -> rsum (fun o => share rank u y o * pr o) (outs E) = 1 - z -> rsum (fun o => th o * pr o) (outs E) = 1 - (1 - g) * z).
    { intros pr z S Z. unfold th. rewrite (rsum_ext _ (fun o => g * pr o + (1 - g) * (share rank u y o * pr o))) by (intros; ring). rewrite rsum_plus, !rsum_scal, S, Z. ring. }
    assert (EP : rsum (fun o => th o * prP E o) (outs E) = 1 - (1 - g) * x) by (apply SUM; [exact SP | apply share_sum; assumption]).
    assert (EQ : rsum (fun o => th o * prQ E o) (outs E) = 1 - (1 - g) * x') by (apply SUM; [exact SQ | apply share_sum; assumption]).
    assert (R : 1 - (1 - g) * x' <= exp c0 * (1 - (1 - g) * x)).
    { rewrite <- EP, <- EQ. destruct ahat as [a| | |]; try contradiction.
      - destruct C as [Ha C]. eapply Rle_trans; [apply (weighted_ratio (swap E) th g a rhat); try assumption; [apply valid_swap, V | lra]|].
        cbn [swap outs prQ prP]. apply Rmult_le_compat_r; [rewrite EP; lra | apply exp_le, C].
      - eapply Rle_trans; [apply (weighted_ratio_inf (swap E) th rhat); [intros o Io; specialize (TH o Io); lra | assumption]|].
        cbn [swap outs prQ prP]. apply Rmult_le_compat_r; [rewrite EP; lra | apply exp_le, C]. }
    unfold tnb_f'. set (w := 1 - (1 - g) * x) in *. set (w' := 1 - (1 - g) * x') in *.
    replace (exp ((1 + s) * c0) * (tnb_m s g * Rpower (w' / g) (- (s + 1)))) with (tnb_m s g * (exp ((1 + s) * c0) * Rpower (w' / g) (- (s + 1)))) by ring.
    apply Rmult_le_compat_l; [left; apply tnb_mean_pos; assumption|]. unfold Rpower. rewrite <- exp_plus. apply exp_le. rewrite !ln_div by lra.
    assert (L : ln w' <= c0 + ln w). { apply exp_le_inv2. rewrite exp_plus, !exp_ln by lra. exact R. }
    nra.
  Qed.
End TnbBound.

(** ** Poisson *)
Section PoissonBound.
  Context (mu : R) (Hmu : 1 <= mu) (E : exper) (V : valid E) (rank : outcome E -> nat) (N : NoDup (map rank (outs E))).
  Notation lowP := (below rank (prP E) (outs E)).
  Notation lowQ := (below rank (prQ E) (outs E)).
  Definition po_f (x : R) : R := exp (mu * (x - 1)).
  Definition po_f' (x : R) : R := mu * exp (mu * (x - 1)).
  Lemma po_deriv x : derivable_pt_lim po_f x (po_f' x).
  Proof.
    unfold po_f, po_f'. replace (mu * exp (mu * (x - 1))) with (exp (mu * (x - 1)) * (mu * (1 - 0))) by ring.
    apply (derivable_pt_lim_comp (fun x => mu * (x - 1)) exp); [|apply derivable_pt_lim_exp].
    apply (derivable_pt_lim_scal (fun x => x - 1)). apply (derivable_pt_lim_minus (fun x => x) (fun _ => 1)); [apply derivable_pt_lim_id | apply derivable_pt_lim_const].
  Qed.
  Lemma po_pos x : 0 < po_f' x.
  Proof. apply Rmult_lt_0_compat; [lra | apply exp_pos]. Qed.
  (** Probability of rank at least that of [y], under a bound on the hockey-stick divergence. *)
  Lemma dp_share eps d y u : dp (swap E) eps d -> In y (outs E) -> 0 <= u <= 1 ->
    1 - (lowQ y + u * prQ E y) <= exp eps * (1 - (lowP y + u * prP E y)) + d.
  Proof.
    intros D I U. pose proof V as (V1 & SP & SQ). rewrite <- (share_sum rank (prP E) (outs E) u y N I SP), <- (share_sum rank (prQ E) (outs E) u y N I SQ).
    apply dp_iff_hockey in D. change (rsum (fun a => pos (prQ E a - exp eps * prP E a)) (outs E) <= d) in D.
    enough (X : rsum (fun o => share rank u y o * prQ E o) (outs E) - exp eps * rsum (fun o => share rank u y o * prP E o) (outs E) <= rsum (fun a => pos (prQ E a - exp eps * prP E a)) (outs E)) by lra.
    rewrite <- rsum_scal, <- rsum_minus. apply rsum_le. intros o _. pose proof (share_range rank u y o U) as [S0 S1].
    pose proof (pos_ge (prQ E o - exp eps * prP E o)). pose proof (pos_nonneg (prQ E o - exp eps * prP E o)). nra.
  Qed.
  Context (sP sQ : option (outcome E) -> R) (P0 : sP None = po_f 0) (Q0 : sQ None = po_f 0).
  Context (PY : forall y, In y (outs E) -> sP (Some y) = po_f (lowP y + prP E y) - po_f (lowP y) /\ sQ (Some y) = po_f (lowQ y + prQ E y) - po_f (lowQ y)).
  Notation B := {| outcome := option (outcome E); outs := None :: map Some (outs E); prP := sP; prQ := sQ |}.
  Lemma po_valid : valid B.
  Proof.
    apply (selected_valid po_f po_f' (fun x _ => po_deriv x) (fun x _ => po_pos x)) with (rank := rank); try assumption.
    - unfold po_f. rewrite Rminus_diag_eq, Rmult_0_r by reflexivity. apply exp_0.
    - left. apply exp_pos.
  Qed.
  Lemma po_inf r d : renyi_bounded E PInf (Fin r) -> dp (swap E) 0 d -> 0 <= d -> renyi_bounded B PInf (Fin (r + mu * d)).
  Proof.
    intros H D Hd. apply (selected_ratio_inf po_f po_f' (fun x _ => po_deriv x) (fun x _ => po_pos x)) with (rank := rank); try assumption.
    - unfold po_f. rewrite Rminus_diag_eq, Rmult_0_r by reflexivity. apply exp_0.
    - left. apply exp_pos.
    - right. apply Rmult_le_pos; lra.
    - intros y u I U. pose proof (dp_share 0 d y u D I U) as X. rewrite exp_0 in X. unfold po_f'.
      replace (exp (mu * d) * (mu * exp (mu * (lowQ y + u * prQ E y - 1)))) with (mu * exp (mu * d + mu * (lowQ y + u * prQ E y - 1))) by (rewrite exp_plus; ring).
      apply Rmult_le_compat_l; [lra|]. apply exp_le. nra.
  Qed.
  Lemma po_order a r d : 1 < a -> renyi_bounded E (Fin a) (Fin r) -> dp (swap E) (ln (1 + 1 / (a - 1))) d -> 0 <= d ->
    renyi_bounded B (Fin a) (Fin (r + mu * d + ln mu / (a - 1))).
  Proof.
    intros Ha (AC & _ & Hr) D Hd. set (c := exp (mu * ((a - 1) * d))).
    assert (Ad : 0 <= (a - 1) * d) by (apply Rmult_le_pos; lra).
    assert (C1 : 1 <= c) by (unfold c; apply Rle_trans with (exp 0); [rewrite exp_0; lra | apply exp_le, Rmult_le_pos; lra]).
    set (G := fun x x' : R => exp (- (mu * (a * (1 - x) - (a - 1) * (1 - x'))))).
    destruct (selected_moment po_f po_f' (fun x _ => po_deriv x) (fun x _ => po_pos x) ltac:(left; apply exp_pos) E V rank N sP sQ P0 Q0 PY a
      (fun y => mu * c * (moment_term a (prP E y) (prQ E y) - (a * prP E y - (a - 1) * prQ E y)) + (G (lowP y + prP E y) (lowQ y + prQ E y) - G (lowP y) (lowQ y))) Ha AC) as [AC' M].
    { intros y I. set (w := moment_term a (prP E y) (prQ E y)). set (m := a * prP E y - (a - 1) * prQ E y).
      destruct (proj1 V y I) as [Py Qy].
      assert (MW : m <= w).
      { unfold m, w. pose proof (tangent_term a 1 (prP E y) (prQ E y) ltac:(lra) Rlt_0_1 Py Qy (AC y I)) as T. unfold tangent in T.
        replace (Rpower 1 (a - 1)) with 1 in T by (unfold Rpower; rewrite ln_1, Rmult_0_r, exp_0; reflexivity). replace (Rpower 1 a) with 1 in T by (unfold Rpower; rewrite ln_1, Rmult_0_r, exp_0; reflexivity). lra. }
      exists (fun u => u * (mu * c * (w - m)) + G (lowP y + u * prP E y) (lowQ y + u * prQ E y)),
             (fun u => mu * c * (w - m) + mu * m * G (lowP y + u * prP E y) (lowQ y + u * prQ E y)).
      split; [rewrite !Rmult_0_l, !Rmult_1_l, !Rplus_0_r; fold w m; lra|]. intros u U. split.
      - apply (derivable_pt_lim_plus (fun u => u * (mu * c * (w - m))) (fun u => G (lowP y + u * prP E y) (lowQ y + u * prQ E y))); [apply lin_deriv|].
        assert (DI : derivable_pt_lim (fun u => - (mu * (a * (1 - (lowP y)) - (a - 1) * (1 - (lowQ y)))) + u * (mu * m)) u (0 + mu * m)).
        { apply (derivable_pt_lim_plus (fun _ => - (mu * (a * (1 - (lowP y)) - (a - 1) * (1 - (lowQ y))))) (fun u => u * (mu * m))); [apply derivable_pt_lim_const | apply lin_deriv]. }
        pose proof (derivable_pt_lim_comp _ exp u _ _ DI (derivable_pt_lim_exp _)) as DE.
        replace (mu * m * G (lowP y + u * prP E y) (lowQ y + u * prQ E y)) with (exp (- (mu * (a * (1 - lowP y) - (a - 1) * (1 - lowQ y))) + u * (mu * m)) * (0 + mu * m)).
        + intros e He. destruct (DE e He) as [dl A]. exists dl. intros h H1 H2. specialize (A h H1 H2). unfold comp in A. unfold G.
          assert (Z : forall v, - (mu * (a * (1 - (lowP y + v * prP E y)) - (a - 1) * (1 - (lowQ y + v * prQ E y)))) = - (mu * (a * (1 - lowP y) - (a - 1) * (1 - lowQ y))) + v * (mu * m)) by (intros v; unfold m; ring).
          rewrite !Z. exact A.
        + unfold G. replace (- (mu * (a * (1 - (lowP y + u * prP E y)) - (a - 1) * (1 - (lowQ y + u * prQ E y))))) with (- (mu * (a * (1 - lowP y) - (a - 1) * (1 - lowQ y))) + u * (mu * m)) by (unfold m; ring). ring.
      - set (x := lowP y + u * prP E y). set (x' := lowQ y + u * prQ E y).
        assert (H : po_f' x * Rpower (po_f' x / po_f' x') (a - 1) = mu * G x x').
        { unfold po_f'. replace (mu * exp (mu * (x - 1)) / (mu * exp (mu * (x' - 1)))) with (exp (mu * (x - x'))).
          - unfold Rpower, G. rewrite ln_exp, Rmult_assoc, <- exp_plus. f_equal. f_equal. ring.
          - replace (mu * (x - x')) with (mu * (x - 1) - mu * (x' - 1)) by ring. rewrite exp_minus. field. split; [apply Rgt_not_eq, exp_pos | lra]. }
        fold w. rewrite H.
        assert (GC : G x x' <= c).
        { unfold G, c. apply exp_le. pose proof (dp_share _ d y u D I U) as X. fold x x' in X.
          assert (Pa : 0 < 1 + 1 / (a - 1)) by (assert (0 < 1 / (a - 1)) by (apply Rdiv_lt_0_compat; lra); lra).
          rewrite exp_ln in X by exact Pa. apply (Rmult_le_compat_l (a - 1)) in X; [|lra].
          replace ((a - 1) * ((1 + 1 / (a - 1)) * (1 - x) + d)) with (a * (1 - x) + (a - 1) * d) in X by (field; lra).
          replace (- (mu * (a * (1 - x) - (a - 1) * (1 - x')))) with (mu * ((a - 1) * (1 - x') - a * (1 - x))) by ring. apply Rmult_le_compat_l; lra. }
        replace (w * (mu * G x x')) with (mu * (w - m) * G x x' + mu * m * G x x') by ring. apply Rplus_le_compat_r.
        replace (mu * c * (w - m)) with (mu * (w - m) * c) by ring. apply Rmult_le_compat_l; [apply Rmult_le_pos; lra | exact GC]. }
    split; [exact AC'|]. split; [lra|]. apply renyi_moment_le; [exact po_valid | exact AC' | exact Ha|]. eapply Rle_trans; [exact M|].
    apply moment_bound in Hr; try assumption. pose proof V as (V1 & SP & SQ).
    rewrite rsum_plus, rsum_scal, rsum_minus, rsum_minus, !rsum_scal, SP, SQ, <- moment_is_terms.
    rewrite (telescope rank G (prP E) (prQ E) _ (outs E) eq_refl N), SP, SQ.
    replace (G 1 1) with 1 by (unfold G; symmetry; transitivity (exp 0); [f_equal; ring | apply exp_0]). replace (G 0 0) with (po_f 0) by (unfold G, po_f; f_equal; ring).
    apply Rle_trans with (mu * c * exp ((a - 1) * r)).
    - assert (1 <= mu * c) by nra. assert (mu * c * renyi_moment E a <= mu * c * exp ((a - 1) * r)) by (apply Rmult_le_compat_l; lra). lra.
    - right. unfold c. rewrite <- (exp_ln mu) at 1 by lra. rewrite <- !exp_plus. f_equal. field. lra.
  Qed.
End PoissonBound.
