(** Renyi divergences of the best of a random number of runs. *)
From Verif Require Import Base XReal SpecDP SpecRenyi SpecSelect ProofDP ProofShape ProofRenyi ProofObserve ProofGaussRdp ProofRefine ProofSelect.
Local Arguments Rltb : simpl never.
Local Arguments Rleb : simpl never.
Local Arguments Reqb : simpl never.

Lemma mono_on (H h : R -> R) x y : x <= y -> (forall z, x <= z <= y -> derivable_pt_lim H z (h z) /\ 0 <= h z) -> H x <= H y.
Proof.
  intros L P. destruct (Rle_lt_or_eq_dec x y L) as [L'| ->]; [|lra].
  destruct (MVT_cor2 H h x y L' (fun c Hc => proj1 (P c Hc))) as (c & E & Hc). destruct (P c ltac:(lra)). nra.
Qed.
Lemma lin_deriv k u : derivable_pt_lim (fun u => u * k) u k.
Proof.
  assert (D : derivable_pt_lim (fun u => u * k) u (1 * k + u * 0)).
  { apply (derivable_pt_lim_mult (fun u => u) (fun _ => k)); [apply derivable_pt_lim_id | apply derivable_pt_lim_const]. }
  replace (1 * k + u * 0) with k in D by ring. exact D.
Qed.
Lemma line_deriv f c p u d : derivable_pt_lim f (c + u * p) d -> derivable_pt_lim (fun u => f (c + u * p)) u (p * d).
Proof.
  intros H. replace (p * d) with (d * p) by ring. apply (derivable_pt_lim_comp (fun u => c + u * p) f u p d); [|exact H].
  enough (D : derivable_pt_lim (fun u => c + u * p) u (0 + p)) by (rewrite Rplus_0_l in D; exact D). apply (derivable_pt_lim_plus (fun _ => c) (fun u => u * p)); [apply derivable_pt_lim_const | apply lin_deriv].
Qed.
Lemma term_scale a p q F F' : 0 <= p -> 0 <= q -> (q = 0 -> p = 0) -> 0 < F -> 0 < F' ->
  moment_term a (p * F) (q * F') = moment_term a p q * (F * Rpower (F / F') (a - 1)).
Proof.
  intros Hp Hq Z HF HF'. unfold moment_term. destruct (Reqb_spec p 0) as [->|N].
  - rewrite Rmult_0_l, Reqb_true by reflexivity. ring.
  - rewrite Reqb_false by (intros X; apply Rmult_integral in X; lra).
    assert (0 < q) by (destruct Hq as [|e]; [assumption | exfalso; apply N, Z; auto]).
    replace (p * F / (q * F')) with (p / q * (F / F')) by (field; lra).
    rewrite <- Rpower_mult_distr by (apply Rdiv_lt_0_compat; lra). ring.
Qed.

Section Step.
  Context (f f' : R -> R) (Df : forall x, 0 <= x <= 1 -> derivable_pt_lim f x (f' x)) (Pf : forall x, 0 <= x <= 1 -> 0 < f' x).
  Context (p q cp cq : R) (Hp : 0 <= p) (Hq : 0 <= q) (Hcp : 0 <= cp) (Hcq : 0 <= cq) (Sp : cp + p <= 1) (Sq : cq + q <= 1).
  Lemma inside c r u : 0 <= c -> 0 <= r -> c + r <= 1 -> 0 <= u <= 1 -> 0 <= c + u * r <= 1.
  Proof. intros. assert (0 <= u * r) by (apply Rmult_le_pos; lra). assert (u * r <= 1 * r) by (apply Rmult_le_compat_r; lra). lra. Qed.
  Lemma rise c r : 0 <= c -> 0 <= r -> c + r <= 1 -> 0 <= f (c + r) - f c.
  Proof.
    intros H1 H2 H3. enough (f c <= f (c + r)) by lra. apply (mono_on f f'); [lra|]. intros z Hz. split; [apply Df; lra | left; apply Pf; lra].
  Qed.
  Lemma step_term a (K k : R -> R) : 1 < a -> (q = 0 -> p = 0) ->
    (forall u, 0 <= u <= 1 -> derivable_pt_lim K u (k u) /\
       moment_term a p q * (f' (cp + u * p) * Rpower (f' (cp + u * p) / f' (cq + u * q)) (a - 1)) <= k u) ->
    (f (cq + q) - f cq = 0 -> f (cp + p) - f cp = 0) /\
    moment_term a (f (cp + p) - f cp) (f (cq + q) - f cq) <= K 1 - K 0.
  Proof.
    intros Ha Z H.
    assert (W : forall u, 0 <= u <= 1 -> 0 < f' (cp + u * p) /\ 0 < f' (cq + u * q)).
    { intros u Hu. split; apply Pf; apply inside; assumption. }
    apply term_bound; try (apply rise; assumption); try assumption.
    - enough (K 0 <= K 1) by lra. apply (mono_on K k); [lra|]. intros u Hu. destruct (H u Hu) as [D B]. split; [exact D|].
      eapply Rle_trans; [|exact B]. destruct (W u Hu) as [W1 _]. apply Rmult_le_pos; [apply term_nonneg, Hp|].
      apply Rmult_le_pos; [lra | left; apply Rpower_pos].
    - intros t Ht. set (T := fun u => K u - tangent a t (f (cp + u * p)) (f (cq + u * q))).
      enough (X : T 0 <= T 1).
      { unfold T in X. rewrite !Rmult_0_l, !Rmult_1_l, !Rplus_0_r in X. rewrite tangent_diff. lra. }
      apply (mono_on T (fun u => k u - tangent a t (p * f' (cp + u * p)) (q * f' (cq + u * q)))); [lra|].
      intros u Hu. destruct (H u Hu) as [D B]. destruct (W u Hu) as [W1 W2]. split.
      + apply (derivable_pt_lim_minus K (fun u => tangent a t (f (cp + u * p)) (f (cq + u * q)))); [exact D|].
        apply (tangent_deriv a t (fun u => f (cp + u * p)) (fun u => f (cq + u * q))); apply line_deriv, Df, inside; assumption.
      + enough (tangent a t (p * f' (cp + u * p)) (q * f' (cq + u * q)) <= k u) by lra. eapply Rle_trans; [|exact B].
        rewrite <- term_scale by assumption. apply tangent_term; try lra; try (apply Rmult_le_pos; lra).
        intros X. apply Rmult_integral in X. destruct X as [X|X]; [rewrite Z by exact X; ring | lra].
  Qed.
  Lemma step_inf r d : p <= exp r * q -> (forall u, 0 <= u <= 1 -> f' (cp + u * p) <= exp d * f' (cq + u * q)) ->
    f (cp + p) - f cp <= exp (r + d) * (f (cq + q) - f cq).
  Proof.
    intros B H. set (T := fun u => exp (r + d) * f (cq + u * q) - f (cp + u * p)).
    enough (X : T 0 <= T 1). { unfold T in X. rewrite !Rmult_0_l, !Rmult_1_l, !Rplus_0_r in X. lra. }
    apply (mono_on T (fun u => exp (r + d) * (q * f' (cq + u * q)) - p * f' (cp + u * p))); [lra|]. intros u Hu. split.
    - apply (derivable_pt_lim_minus (fun u => exp (r + d) * f (cq + u * q)) (fun u => f (cp + u * p))).
      + apply (derivable_pt_lim_scal (fun u => f (cq + u * q))). apply line_deriv, Df, inside; assumption.
      + apply line_deriv, Df, inside; assumption.
    - enough (p * f' (cp + u * p) <= exp (r + d) * (q * f' (cq + u * q))) by lra. rewrite exp_plus.
      replace (exp r * exp d * (q * f' (cq + u * q))) with ((exp r * q) * (exp d * f' (cq + u * q))) by ring.
      apply Rmult_le_compat; [exact Hp | left; apply Pf, inside; assumption | exact B | apply H, Hu].
  Qed.
End Step.


Lemma order_inf_pos E r : valid E -> (forall o, In o (outs E) -> prP E o <= exp r * prQ E o) -> 0 <= r.
Proof.
  intros (_ & SP & SQ) H. apply exp_le_inv2. rewrite exp_0. rewrite <- SP. rewrite <- (Rmult_1_r (exp r)), <- SQ, <- rsum_scal. apply rsum_le, H.
Qed.
Lemma moment_bound E a r : valid E -> absolutely_continuous E -> 1 < a -> renyi E a <= r -> renyi_moment E a <= exp ((a - 1) * r).
Proof. intros V AC Ha H. apply renyi_moment_le; assumption. Qed.

Section Selection.
  Context (pk : nat -> R) (f f' : R -> R).
  Context (PGF : forall x, 0 <= x <= 1 -> infinite_sum (fun k => pk k * x ^ k) (f x)).
  Context (Df : forall x, 0 <= x <= 1 -> derivable_pt_lim f x (f' x)) (Pf : forall x, 0 <= x <= 1 -> 0 < f' x).
  Context (F1 : f 1 = 1) (F0 : 0 <= f 0).
  Context (E A : exper) (V : valid E).
  Context (rank : outcome E -> nat) (N : NoDup (map rank (outs E))).
  Notation lowP := (below rank (prP E) (outs E)).
  Notation lowQ := (below rank (prQ E) (outs E)).
  Context (sP sQ : option (outcome E) -> R) (P0 : sP None = f 0) (Q0 : sQ None = f 0).
  Context (PY : forall y, In y (outs E) -> sP (Some y) = f (lowP y + prP E y) - f (lowP y) /\ sQ (Some y) = f (lowQ y + prQ E y) - f (lowQ y)).
  Notation B := {| outcome := option (outcome E); outs := None :: map Some (outs E); prP := sP; prQ := sQ |}.

  Lemma low_range y u : In y (outs E) -> 0 <= u <= 1 ->
    0 <= prP E y /\ 0 <= prQ E y /\ 0 <= lowP y /\ 0 <= lowQ y /\ lowP y + prP E y <= 1 /\ lowQ y + prQ E y <= 1.
  Proof.
    intros I U. destruct V as (V1 & SP & SQ). destruct (V1 y I).
    destruct (below_range rank (prP E) (outs E) y 1 (fun x Ix => proj1 (V1 x Ix)) SP N I ltac:(lra)).
    destruct (below_range rank (prQ E) (outs E) y 1 (fun x Ix => proj2 (V1 x Ix)) SQ N I ltac:(lra)).
    rewrite Rmult_1_l in *. tauto.
  Qed.
  Lemma selected_valid : valid B.
  Proof.
    destruct V as (V1 & SP & SQ). split; [|split].
    - intros o [<-|I]; [cbn; lra|]. apply in_map_iff in I. destruct I as (y & <- & I). cbn [prP prQ]. destruct (PY y I) as [-> ->].
      destruct (low_range y 0 I ltac:(lra)) as (? & ? & ? & ? & ? & ?). split; apply (rise f f' Df Pf); assumption.
    - cbn [outs prP rsum]. rewrite rsum_map, P0, (rsum_ext _ (fun y => f (lowP y + prP E y) - f (lowP y))) by (intros y I; apply (PY y I)).
      rewrite (telescope rank (fun x _ => f x) (prP E) (prQ E) _ (outs E) eq_refl N), SP. lra.
    - cbn [outs prQ rsum]. rewrite rsum_map, Q0, (rsum_ext _ (fun y => f (lowQ y + prQ E y) - f (lowQ y))) by (intros y I; apply (PY y I)).
      rewrite (telescope rank (fun _ x => f x) (prP E) (prQ E) _ (outs E) eq_refl N), SQ. lra.
  Qed.

  (** A bound outcome by outcome gives one on the moment. *)
  Lemma selected_moment a (bd : outcome E -> R) : 1 < a -> absolutely_continuous E ->
    (forall y, In y (outs E) -> exists K k, K 1 - K 0 <= bd y /\ forall u, 0 <= u <= 1 -> derivable_pt_lim K u (k u) /\
       moment_term a (prP E y) (prQ E y) *
         (f' (lowP y + u * prP E y) * Rpower (f' (lowP y + u * prP E y) / f' (lowQ y + u * prQ E y)) (a - 1)) <= k u) ->
    absolutely_continuous B /\ renyi_moment B a <= f 0 + rsum bd (outs E).
  Proof.
    intros Ha AC H.
    assert (ONE : forall y, In y (outs E) -> (sQ (Some y) = 0 -> sP (Some y) = 0) /\ moment_term a (sP (Some y)) (sQ (Some y)) <= bd y).
    { intros y I. destruct (H y I) as (K & k & L & HK). destruct (PY y I) as [-> ->].
      destruct (low_range y 0 I ltac:(lra)) as (? & ? & ? & ? & ? & ?).
      destruct (step_term f f' Df Pf (prP E y) (prQ E y) (lowP y) (lowQ y)) with (a := a) (K := K) (k := k) as [S1 S2]; try assumption; [apply AC, I|].
      split; [exact S1 | lra]. }
    split.
    - intros o [<-|I]; cbn [prP prQ]; [rewrite P0, Q0; auto|]. apply in_map_iff in I. destruct I as (y & <- & I). apply (ONE y I).
    - rewrite moment_is_terms. cbn [outs prP prQ rsum]. rewrite rsum_map. apply Rplus_le_compat.
      + rewrite P0, Q0. unfold moment_term. destruct (Reqb_spec (f 0) 0); [lra|].
        unfold Rdiv. rewrite Rinv_r by assumption. unfold Rpower. rewrite ln_1, Rmult_0_r, exp_0. lra.
      + apply rsum_le. intros y I. apply (ONE y I).
  Qed.

  (** ** When the density of the number of runs varies by a bounded factor *)
  Lemma selected_ratio a r m c : f 0 = 0 -> 0 < m -> 1 < a -> renyi_bounded E (Fin a) (Fin r) ->
    (forall y u, In y (outs E) -> 0 <= u <= 1 -> f' (lowP y + u * prP E y) <= m /\
       f' (lowP y + u * prP E y) <= exp c * f' (lowQ y + u * prQ E y)) ->
    renyi_bounded B (Fin a) (Fin (r + ln m / (a - 1) + c)).
  Proof.
    intros Z Hm Ha (AC & _ & Hr) H.
    destruct (selected_moment a (fun y => m * exp ((a - 1) * c) * moment_term a (prP E y) (prQ E y)) Ha AC) as [AC' M].
    { intros y I. exists (fun u => u * (m * exp ((a - 1) * c) * moment_term a (prP E y) (prQ E y))), (fun _ => m * exp ((a - 1) * c) * moment_term a (prP E y) (prQ E y)).
      split; [lra|]. intros u Hu. split.
      - apply lin_deriv.
      - destruct (low_range y u I Hu) as (? & ? & ? & ? & ? & ?). destruct (H y u I Hu) as [L1 L2].
        assert (X1 : 0 < f' (lowP y + u * prP E y)) by (apply Pf, inside; assumption).
        assert (X2 : 0 < f' (lowQ y + u * prQ E y)) by (apply Pf, inside; assumption).
        rewrite (Rmult_comm (moment_term _ _ _)). apply Rmult_le_compat_r; [apply term_nonneg; assumption|].
        apply Rmult_le_compat; [lra | left; apply Rpower_pos | exact L1|].
        replace (exp ((a - 1) * c)) with (Rpower (exp c) (a - 1)) by (unfold Rpower; rewrite ln_exp; reflexivity).
        apply Rle_Rpower_l; [lra|]. split; [apply Rdiv_lt_0_compat; assumption|].
        apply (Rmult_le_reg_r (f' (lowQ y + u * prQ E y))); [assumption|]. unfold Rdiv. rewrite Rmult_assoc, Rinv_l by lra. lra. }
    split; [exact AC'|]. split; [lra|]. apply renyi_moment_le; [exact selected_valid | exact AC' | exact Ha|].
    rewrite Z, rsum_scal, Rplus_0_l, <- moment_is_terms in M. eapply Rle_trans; [exact M|].
    apply moment_bound in Hr; try assumption.
    eapply Rle_trans; [apply Rmult_le_compat_l; [apply Rmult_le_pos; [lra | apply exp_pos_nonneg] | exact Hr]|].
    right. rewrite <- (exp_ln m) at 1 by assumption. rewrite <- !exp_plus. f_equal. field. lra.
  Qed.
  Lemma selected_ratio_inf r c : f 0 = 0 \/ 0 <= c -> renyi_bounded E PInf (Fin r) ->
    (forall y u, In y (outs E) -> 0 <= u <= 1 -> f' (lowP y + u * prP E y) <= exp c * f' (lowQ y + u * prQ E y)) ->
    renyi_bounded B PInf (Fin (r + c)).
  Proof.
    intros Z (AC & Hr) H. pose proof (order_inf_pos E r V Hr) as R0.
    assert (L : forall o, In o (outs B) -> prP B o <= exp (r + c) * prQ B o).
    { intros o [<-|I]; cbn [prP prQ].
      - rewrite P0, Q0. destruct Z as [->|Hc]; [lra|]. rewrite <- (Rmult_1_l (f 0)) at 1. apply Rmult_le_compat_r; [assumption|].
        rewrite <- exp_0. apply exp_le. lra.
      - apply in_map_iff in I. destruct I as (y & <- & I). destruct (PY y I) as [-> ->]. destruct (low_range y 0 I ltac:(lra)) as (? & ? & ? & ? & ? & ?).
        apply (step_inf f f' Df Pf); try assumption; [apply Hr, I|]. intros u Hu. apply H; assumption. }
    split; [|exact L]. intros o Io Zo. specialize (L o Io). rewrite Zo, Rmult_0_r in L. destruct (proj1 selected_valid o Io). lra.
  Qed.
End Selection.
