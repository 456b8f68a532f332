(** The Gaussian distribution is a noise family. *)
From Verif Require Import Base XReal SpecDP SpecMech ProofDP ProofPeak ProofNoise ProofShape.
Local Arguments Rltb : simpl never.
Local Arguments Rleb : simpl never.
Local Arguments Reqb : simpl never.

Definition gaussian_law (Phi : R -> R) (sigma x : R) : R := Phi (x / sigma).

Section Gaussian.
  Variables (Phi : R -> R) (sigma : R).
  Hypotheses (HP : normal_cdf Phi) (Hs : 0 < sigma).

  Lemma normal_mirror x : Phi x = 1 - Phi (- x).
  Proof.
    destruct HP as ((B & M & L & U) & c & Hc & D).
    assert (K : forall x y, x <= y -> Phi x + Phi (- x) = Phi y + Phi (- y)).
    { intros u v Huv.
      assert (DG : forall z, derivable_pt_lim (fun x => Phi x + Phi (- x)) z 0).
      { intros z. replace 0 with (c * exp (- (z * z) / 2) + c * exp (- (- z * - z) / 2) * -1).
        2: { replace (- z * - z) with (z * z) by ring. ring. }
        apply (derivable_pt_lim_plus Phi (fun x => Phi (- x))); [apply D|].
        apply (derivable_pt_lim_comp Ropp Phi z (-1)); [|apply D].
        replace (-1) with (- (1)) by ring. apply (derivable_pt_lim_opp id z 1), derivable_pt_lim_id. }
      apply Rle_antisym.
      - apply (deriv_nonneg (fun x => Phi x + Phi (- x)) (fun _ => 0)); [exact DG | assumption | intros; lra].
      - apply (deriv_nonpos (fun x => Phi x + Phi (- x)) (fun _ => 0)); [exact DG | assumption | intros; lra]. }
    assert (E : forall e, 0 < e -> Rabs (Phi x + Phi (- x) - 1) <= e).
    { intros e He. destruct (L e He) as [y Hy]. destruct (U e He) as [z Hz].
      pose (w := Rmax (Rmax z (- y)) x).
      assert (W1 : z <= w) by (unfold w; eapply Rle_trans; [apply Rmax_l | apply Rmax_l]).
      assert (W2 : - y <= w) by (unfold w; eapply Rle_trans; [apply Rmax_r | apply Rmax_l]).
      assert (W3 : x <= w) by apply Rmax_r.
      rewrite (K x w W3). pose proof (M _ _ W1). pose proof (M (- w) y ltac:(lra)). specialize (B w). 
      assert (B2 : 0 <= Phi (- w)) by (destruct HP as ((B' & _) & _); apply B').
      apply Rabs_le. lra. }
    assert (Z : Phi x + Phi (- x) - 1 = 0); [|lra].
    apply Rabs_eq_0 || idtac. destruct (Req_dec (Phi x + Phi (- x) - 1) 0) as [Z|N]; [assumption|].
    apply Rabs_pos_lt in N. specialize (E (Rabs (Phi x + Phi (- x) - 1) / 2) ltac:(lra)). lra.
  Qed.
  Lemma gaussian_is_cdf : is_cdf (gaussian_law Phi sigma).
  Proof.
    destruct HP as ((B & M & L & U) & _). unfold gaussian_law. split; [intros; apply B|]. split; [|split].
    - intros x y H. apply M. apply Rmult_le_compat_r; [left; apply Rinv_0_lt_compat, Hs | assumption].
    - intros e He. destruct (L e He) as [x Hx]. exists (x * sigma). replace (x * sigma / sigma) with x by (field; lra). assumption.
    - intros e He. destruct (U e He) as [x Hx]. exists (x * sigma). replace (x * sigma / sigma) with x by (field; lra). assumption.
  Qed.
  Lemma gaussian_deriv : exists c, 0 < c /\
    forall x, derivable_pt_lim (gaussian_law Phi sigma) x (c * exp (- (x * x) / (2 * (sigma * sigma)))).
  Proof.
    destruct HP as (_ & c & Hc & D). exists (c / sigma). split; [apply Rdiv_lt_0_compat; assumption|]. intros x.
    replace (c / sigma * exp (- (x * x) / (2 * (sigma * sigma)))) with (c * exp (- (x / sigma * (x / sigma)) / 2) * / sigma).
    2: { replace (- (x / sigma * (x / sigma)) / 2) with (- (x * x) / (2 * (sigma * sigma))) by (field; lra). unfold Rdiv. ring. }
    apply (derivable_pt_lim_comp (fun x => x / sigma) Phi x (/ sigma)); [|apply D].
    pose proof (derivable_pt_lim_scal id (/ sigma) x 1 (derivable_pt_lim_id x)) as E. unfold mult_real_fct, id in E.
    intros e He. destruct (E e He) as [dl Hd]. exists dl. intros h Hh Hl. specialize (Hd h Hh Hl).
    replace (((x + h) / sigma - x / sigma) / h - / sigma) with ((/ sigma * (x + h) - / sigma * x) / h - / sigma * 1); [assumption|].
    field. lra.
  Qed.
  Definition gaussian_peak (s l : R) : xr :=
    if Reqb s 0 then (if Rleb l 0 then PInf else MInf) else Fin (- (1/2) * s - l * (sigma * sigma) / s).
  Lemma gauss_loss x s : - ((x + s) * (x + s)) / (2 * (sigma * sigma)) - - (x * x) / (2 * (sigma * sigma))
    = s * (- (1/2) * s - x) / (sigma * sigma).
  Proof. field. lra. Qed.
  Lemma gauss_loss_left s l x : 0 <= s -> xleb (Fin x) (gaussian_peak s l) = true -> l <= s * (- (1/2) * s - x) / (sigma * sigma).
  Proof.
    intros Hs0. unfold gaussian_peak. assert (0 < sigma * sigma) by nra. destruct (Reqb_spec s 0) as [->|N]; intros H0.
    - destruct (Rleb_spec l 0); [|discriminate]. unfold Rdiv. rewrite !Rmult_0_l. assumption.
    - apply xleb_fin in H0. apply (Rmult_le_reg_r (sigma * sigma)); [assumption|].
      replace (s * (- (1 / 2) * s - x) / (sigma * sigma) * (sigma * sigma)) with (s * (- (1/2) * s - x)) by (field; lra).
      assert (l * (sigma * sigma) / s <= - (1/2) * s - x) by lra.
      replace (l * (sigma * sigma)) with (s * (l * (sigma * sigma) / s)) by (field; assumption).
      apply Rmult_le_compat_l; assumption.
  Qed.
  Lemma gauss_loss_right s l x : 0 <= s -> xleb (gaussian_peak s l) (Fin x) = true -> s * (- (1/2) * s - x) / (sigma * sigma) <= l.
  Proof.
    intros Hs0. unfold gaussian_peak. assert (0 < sigma * sigma) by nra. destruct (Reqb_spec s 0) as [->|N]; intros H0.
    - destruct (Rleb_spec l 0); [discriminate|]. unfold Rdiv. rewrite !Rmult_0_l. lra.
    - apply xleb_fin in H0. apply (Rmult_le_reg_r (sigma * sigma)); [assumption|].
      replace (s * (- (1 / 2) * s - x) / (sigma * sigma) * (sigma * sigma)) with (s * (- (1/2) * s - x)) by (field; lra).
      assert (- (1/2) * s - x <= l * (sigma * sigma) / s) by lra.
      replace (l * (sigma * sigma)) with (s * (l * (sigma * sigma) / s)) by (field; assumption).
      apply Rmult_le_compat_l; assumption.
  Qed.
  Lemma gaussian_shape s : 0 <= s -> shape (gaussian_law Phi sigma) s (gaussian_peak s).
  Proof.
    intros Hs0. split; [apply gaussian_is_cdf|]. split; [assumption|]. intros l.
    destruct gaussian_deriv as (c & Hc & D).
    apply (deriv_uni _ (fun x => c * exp (- (x * x) / (2 * (sigma * sigma))))); [exact D | | |].
    - unfold gaussian_peak. destruct (Reqb s 0); [destruct (Rleb l 0)|]; discriminate.
    - intros x H. apply gauss_loss_left in H; [|assumption]. apply exp_ratio_ge; [lra|]. rewrite gauss_loss. assumption.
    - intros x H. apply gauss_loss_right in H; [|assumption]. apply exp_ratio_le; [lra|]. rewrite gauss_loss. assumption.
  Qed.
  Lemma gaussian_family : noise_family any_value (gaussian_law Phi sigma).
  Proof.
    split; [intros s H _; exists (gaussian_peak s); apply gaussian_shape, H|]. split; [|split; [|split]]; try (intros; exact Logic.I).
    exists Ropp. split; [intros; lra|]. split; [|intros; lra]. intros x. unfold gaussian_law.
    rewrite normal_mirror. f_equal. f_equal. field. lra.
  Qed.
End Gaussian.
