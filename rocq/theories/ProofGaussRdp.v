(** Renyi divergence of the Gaussian mechanism, observed through arbitrary cells. *)
From Verif Require Import Base XReal SpecDP SpecRenyi SpecMech SpecNoiseAcc ProofDP ProofPeak ProofShape ProofShapeGauss ProofRenyi ProofObserve.
Local Arguments Rltb : simpl never.
Local Arguments Rleb : simpl never.
Local Arguments Reqb : simpl never.

Lemma scaled_deriv F f w u x : 0 < w -> (forall z, derivable_pt_lim F z (f z)) -> derivable_pt_lim (fun y => F ((y - u) / w)) x (f ((x - u) / w) * / w).
Proof.
  intros Hw D. apply (derivable_pt_lim_comp (fun y => (y - u) / w) F x (/ w)); [|apply D].
  intros e He. exists (mkposreal 1 Rlt_0_1). intros h Hh _.
  replace (((x + h - u) / w - (x - u) / w) / h - / w) with 0 by (field; lra). rewrite Rabs_R0. assumption.
Qed.
Lemma scaled_cdf F w u : 0 < w -> is_cdf F -> is_cdf (fun y => F ((y - u) / w)).
Proof.
  intros Hw (B & M & L & U). split; [intros; apply B|]. split; [|split].
  - intros x y H. apply M. apply Rmult_le_compat_r; [left; apply Rinv_0_lt_compat, Hw | lra].
  - intros e He. destruct (L e He) as [x Hx]. exists (x * w + u). replace ((x * w + u - u) / w) with x by (field; lra). assumption.
  - intros e He. destruct (U e He) as [x Hx]. exists (x * w + u). replace ((x * w + u - u) / w) with x by (field; lra). assumption.
Qed.
Lemma tangent_deriv a t P Q p q x : derivable_pt_lim P x p -> derivable_pt_lim Q x q ->
  derivable_pt_lim (fun y => tangent a t (P y) (Q y)) x (tangent a t p q).
Proof.
  intros HP HQ. unfold tangent.
  apply (derivable_pt_lim_minus (fun y => a * Rpower t (a - 1) * P y) (fun y => (a - 1) * Rpower t a * Q y)).
  - apply (derivable_pt_lim_scal P (a * Rpower t (a - 1))), HP.
  - apply (derivable_pt_lim_scal Q ((a - 1) * Rpower t a)), HQ.
Qed.
Lemma tangent_diff a t p q p' q' : tangent a t (p - p') (q - q') = tangent a t p q - tangent a t p' q'.
Proof. unfold tangent. ring. Qed.
Lemma tangent_scale a t c p q : tangent a t (c * p) (c * q) = c * tangent a t p q.
Proof. unfold tangent. ring. Qed.

Section Gauss.
  Context (Phi : R -> R).
  Hypothesis HPhi : normal_cdf Phi.
  (** P has mean v + d, Q has mean v; both have standard deviation w. *)
  Lemma gauss_moment_cells v d w a cuts : 0 < w -> 1 < a -> StronglySorted Rlt cuts ->
    let E := observe (fun x => Phi ((x - (v + d)) / w)) (fun x => Phi ((x - v) / w)) cuts in
    absolutely_continuous E /\ renyi_moment E a <= exp (a * (a - 1) * (d / w * (d / w)) / 2).
  Proof.
    intros Hw Ha HS E. destruct HPhi as (HC & c & Hc & D). set (mu := d / w).
    set (K := exp (a * (a - 1) * (mu * mu) / 2)). assert (HK : 0 < K) by apply exp_pos.
    pose (M := fun x => K * Phi ((x - (v + a * d)) / w)).
    apply (cells_moment _ _ M K a); try assumption; try (apply (scaled_cdf Phi w); assumption).
    - intros x. destruct HC as (B & _). specialize (B ((x - (v + a * d)) / w)). unfold M. split; nra.
    - intros x y L. unfold M. apply Rmult_le_compat_l; [lra|]. apply (scaled_cdf Phi w (v + a * d) Hw HC), L.
    - intros t Ht x y L. rewrite tangent_diff.
      pose (G := fun z => M z - tangent a t (Phi ((z - (v + d)) / w)) (Phi ((z - v) / w))).
      enough (G x <= G y) by (unfold G in *; lra).
      pose (bell := fun u => c * exp (- (u * u) / 2)).
      apply (deriv_nonneg G (fun z => K * (bell ((z - (v + a * d)) / w) * / w) -
          tangent a t (bell ((z - (v + d)) / w) * / w) (bell ((z - v) / w) * / w))); [|assumption|].
      + intros z. apply (derivable_pt_lim_minus M).
        * apply (derivable_pt_lim_scal (fun x => Phi ((x - (v + a * d)) / w)) K). apply (scaled_deriv Phi bell w); assumption.
        * apply (tangent_deriv a t (fun z => Phi ((z - (v + d)) / w)) (fun z => Phi ((z - v) / w))); apply (scaled_deriv Phi bell w); assumption.
      + intros z _. set (y0 := (z - v) / w).
        replace ((z - (v + a * d)) / w) with (y0 - a * mu) by (unfold y0, mu; field; lra).
        replace ((z - (v + d)) / w) with (y0 - mu) by (unfold y0, mu; field; lra).
        unfold bell. set (e1 := - ((y0 - mu) * (y0 - mu)) / 2). set (e0 := - (y0 * y0) / 2).
        replace (c * exp e1 * / w) with (c * / w * exp e1) by ring. replace (c * exp e0 * / w) with (c * / w * exp e0) by ring.
        rewrite tangent_scale. pose proof (tangent_below a t e1 e0 ltac:(lra) Ht) as T.
        replace (exp (a * e1 + (1 - a) * e0)) with (K * exp (- ((y0 - a * mu) * (y0 - a * mu)) / 2)) in T.
        2: { unfold K, e1, e0. rewrite <- exp_plus. f_equal. field. }
        assert (0 < c * / w) by (apply Rmult_lt_0_compat; [assumption | apply Rinv_0_lt_compat, Hw]). nra.
  Qed.
End Gauss.
