(** Integrals of a normal density against a normal distribution function. *)
From Coquelicot Require Import Coquelicot.
From Verif Require Import Base XReal TypesAdjacency SpecDP SpecMech ProofShape ProofShapeGauss ProofNormal.
Local Open Scope R_scope.

Section Conv.
  Context (Phi : R -> R) (HPhi : normal_cdf Phi) (c : R) (Hc : 0 < c) (D : forall x, derivable_pt_lim Phi x (c * bell x)).
  Lemma phi_derive x : is_derive Phi x (c * bell x).
  Proof. apply is_derive_Reals, D. Qed.
  Lemma phi_cont x : continuous Phi x.
  Proof. apply (ex_derive_continuous Phi). eexists. apply phi_derive. Qed.
  Lemma phi_range x : 0 <= Phi x <= 1.
  Proof. destruct HPhi as ((B & _) & _). apply B. Qed.
  Lemma phi_mono x y : x <= y -> Phi x <= Phi y.
  Proof. destruct HPhi as ((_ & M & _) & _). apply M. Qed.

  Definition dens (be al y : R) : R := c * bell y * Phi (al + be * y).
  Lemma dens_cont be al y : continuous (dens be al) y.
  Proof.
    unfold dens. apply (continuous_mult (fun y => c * bell y) (fun y => Phi (al + be * y))).
    - apply (continuous_mult (fun _ => c) bell); [apply continuous_const | apply bell_continuous].
    - apply (continuous_comp (fun y => al + be * y) Phi); [|apply phi_cont].
      apply (ex_derive_continuous (fun y => al + be * y)). auto_derive. exact Logic.I.
  Qed.
  Lemma dens_int be al l u : ex_RInt (dens be al) l u.
  Proof. apply (ex_RInt_continuous (dens be al)). intros z _. apply dens_cont. Qed.
  Lemma dens_deriv be al l x : derivable_pt_lim (fun y => RInt (dens be al) l y) x (dens be al x).
  Proof.
    apply is_derive_Reals. apply (is_derive_RInt (dens be al) (fun y => RInt (dens be al) l y) l x); [|apply dens_cont].
    exists (mkposreal 1 Rlt_0_1). intros y _. apply (RInt_correct (dens be al) l y), dens_int.
  Qed.
  Definition conv (l u be al : R) : R := RInt (dens be al) l u.

  (** In the other parameter. *)
  Definition root (be : R) : R := sqrt (1 + be * be).
  Lemma root_sq be : root be * root be = 1 + be * be.
  Proof. apply sqrt_sqrt. nra. Qed.
  Lemma root_pos be : 0 < root be.
  Proof. apply sqrt_lt_R0. nra. Qed.
  Lemma inner_derive be al y : is_derive (fun z => dens be z y) al (c * bell y * (c * bell (al + be * y))).
  Proof.
    unfold dens. apply (is_derive_scal (fun z => Phi (z + be * y)) al (c * bell y)).
    replace (c * bell (al + be * y)) with (1 * (c * bell (al + be * y))) by ring.
    apply (is_derive_comp Phi (fun z => z + be * y) al (c * bell (al + be * y)) 1); [apply phi_derive|]. auto_derive; [exact Logic.I | ring].
  Qed.
  Definition prod_int (be al y : R) : R := c * exp (- (al * al) / (2 * (root be * root be))) / root be * Phi (root be * y + al * be / root be).
  Lemma prod_derive be al y : is_derive (prod_int be al) y (c * bell y * (c * bell (al + be * y))).
  Proof.
    pose proof (root_pos be) as Hr. pose proof (root_sq be) as Hq. unfold prod_int.
    replace (c * bell y * (c * bell (al + be * y))) with
      (c * exp (- (al * al) / (2 * (root be * root be))) / root be * (root be * (c * bell (root be * y + al * be / root be)))).
    - apply (is_derive_scal (fun y => Phi (root be * y + al * be / root be)) y _).
      apply (is_derive_comp Phi (fun y => root be * y + al * be / root be) y (c * bell (root be * y + al * be / root be)) (root be)); [apply phi_derive|].
      auto_derive; [exact Logic.I | ring].
    - unfold bell. set (r := root be) in *. change R in (type of y).
      assert (X : exp (- (al * al) / (2 * (r * r))) * exp (- ((r * y + al * be / r) * (r * y + al * be / r)) / 2) = exp (- (y * y) / 2) * exp (- ((al + be * y) * (al + be * y)) / 2)).
      { rewrite <- !exp_plus. f_equal. apply (Rmult_eq_reg_r (2 * (r * r))); [|nra].
        replace ((- (al * al) / (2 * (r * r)) + - ((r * y + al * be / r) * (r * y + al * be / r)) / 2) * (2 * (r * r))) with (- (al * al) - (r * r * y + al * be) * (r * r * y + al * be)) by (field; lra).
        rewrite Hq. field. }
      transitivity (c * c * (exp (- (al * al) / (2 * (r * r))) * exp (- ((r * y + al * be / r) * (r * y + al * be / r)) / 2))); [field; lra|]. rewrite X. ring.
  Qed.
  Lemma prod_RInt be al l u : RInt (fun y => c * bell y * (c * bell (al + be * y))) l u = prod_int be al u - prod_int be al l.
  Proof.
    apply is_RInt_unique. apply (is_RInt_derive (prod_int be al) (fun y => c * bell y * (c * bell (al + be * y)))).
    - intros x _. apply prod_derive.
    - intros x _. apply (ex_derive_continuous (fun y => c * bell y * (c * bell (al + be * y)))). unfold bell. auto_derive. exact Logic.I.
  Qed.
  Lemma conv_deriv l u be al : derivable_pt_lim (conv l u be) al (prod_int be al u - prod_int be al l).
  Proof.
    apply is_derive_Reals. rewrite <- prod_RInt. unfold conv.
    rewrite (RInt_ext (fun y => c * bell y * (c * bell (al + be * y))) (fun t => Derive (fun z => dens be z t) al))
      by (intros x _; symmetry; apply is_derive_unique, inner_derive).
    apply (is_derive_RInt_param (fun z t => dens be z t) l u al).
    - exists (mkposreal 1 Rlt_0_1). intros y _ t _. eexists. apply inner_derive.
    - intros t _. apply (continuity_2d_pt_ext (fun z v => c * bell v * (c * bell (z + be * v)))).
      + intros z v. symmetry. apply is_derive_unique, inner_derive.
      + assert (CB : forall x, continuity_pt bell x) by (intros x; apply continuity_pt_filterlim, bell_continuous).
        apply (continuity_2d_pt_mult (fun z v => c * bell v) (fun z v => c * bell (z + be * v))).
        * apply (continuity_2d_pt_mult (fun z v => c) (fun z v => bell v)); [apply continuity_2d_pt_const|].
          apply (continuity_1d_2d_pt_comp bell (fun z v => v)); [apply CB | apply continuity_2d_pt_id2].
        * apply (continuity_2d_pt_mult (fun z v => c) (fun z v => bell (z + be * v))); [apply continuity_2d_pt_const|].
          apply (continuity_1d_2d_pt_comp bell (fun z v => z + be * v)); [apply CB|].
          apply (continuity_2d_pt_plus (fun z v => z) (fun z v => be * v)); [apply continuity_2d_pt_id1|].
          apply (continuity_2d_pt_mult (fun z v => be) (fun z v => v)); [apply continuity_2d_pt_const | apply continuity_2d_pt_id2].
    - exists (mkposreal 1 Rlt_0_1). intros y _. apply dens_int.
  Qed.
  Lemma target_deriv be al : derivable_pt_lim (fun z => Phi (z / root be)) al (c * exp (- (al * al) / (2 * (root be * root be))) / root be).
  Proof.
    pose proof (root_pos be) as Hr.
    replace (c * exp (- (al * al) / (2 * (root be * root be))) / root be) with (c * bell (al / root be) * (1 / root be)).
    - apply (derivable_pt_lim_comp (fun z => z / root be) Phi al (1 / root be)); [|apply D].
      apply is_derive_Reals. auto_derive; [lra | field; lra].
    - unfold bell. replace (- (al / root be * (al / root be)) / 2) with (- (al * al) / (2 * (root be * root be))) by (field; lra). field. lra.
  Qed.

  (** Comparison with the density alone. *)
  Lemma conv_small l u be al m : l <= u -> (forall y, l <= y <= u -> al + be * y <= m) -> conv l u be al <= Phi m.
  Proof.
    intros L H.
    assert (G : RInt (dens be al) l u - Phi m * Phi u <= RInt (dens be al) l l - Phi m * Phi l).
    { apply (deriv_nonpos (fun y => RInt (dens be al) l y - Phi m * Phi y) (fun y => if Rle_dec l y then if Rle_dec y u then dens be al y - Phi m * (c * bell y) else dens be al y - Phi m * (c * bell y) else dens be al y - Phi m * (c * bell y)) l u); [|exact L|].
      - intros z. replace (if Rle_dec l z then _ else _) with (dens be al z - Phi m * (c * bell z)) by (destruct (Rle_dec l z); [destruct (Rle_dec z u)|]; reflexivity).
        apply derivable_pt_lim_minus; [apply dens_deriv|]. apply (derivable_pt_lim_scal Phi (Phi m)), D.
      - intros z Hz. assert (dens be al z <= Phi m * (c * bell z)); [|destruct (Rle_dec l z); [destruct (Rle_dec z u)|]; lra].
        unfold dens. rewrite (Rmult_comm (Phi m)). apply Rmult_le_compat_l; [|apply phi_mono, H, Hz]. apply Rmult_le_pos; [lra | left; apply exp_pos]. }
    rewrite RInt_point in G. change (RInt (dens be al) l u - Phi m * Phi u <= 0 - Phi m * Phi l) in G. unfold conv. set (I := RInt (dens be al) l u) in *. change R in (type of I).
    pose proof (phi_range m). pose proof (phi_range u). pose proof (phi_range l). assert (Phi m * (Phi u - Phi l) <= Phi m * 1) by (apply Rmult_le_compat_l; lra). lra.
  Qed.
  Lemma conv_upper l u be al : l <= u -> conv l u be al <= Phi (al / root be).
  Proof.
    intros L. destruct (Rle_lt_dec (conv l u be al) (Phi (al / root be))) as [H|H]; [exact H|exfalso].
    pose proof (root_pos be) as Hr.
    destruct HPhi as ((_ & _ & Lo & _) & _). destruct (Lo (conv l u be al - Phi (al / root be)) ltac:(lra)) as [x Hx].
    set (m := Rabs be * (Rabs l + Rabs u)). set (a0 := Rmin al (x - m)).
    assert (S : conv l u be a0 <= Phi x).
    { apply Rle_trans with (Phi (a0 + m)); [|apply phi_mono; pose proof (Rmin_r al (x - m)); unfold a0; lra].
      apply conv_small; [exact L|]. intros y Hy. assert (be * y <= m); [|lra]. unfold m.
      apply Rle_trans with (Rabs (be * y)); [apply Rle_abs|]. rewrite Rabs_mult. apply Rmult_le_compat_l; [apply Rabs_pos|].
      pose proof (Rle_abs u). pose proof (Rle_abs (- l)) as Hl. rewrite Rabs_Ropp in Hl. pose proof (Rabs_pos l). pose proof (Rabs_pos u). apply Rabs_le. lra. }
    assert (G : conv l u be al - Phi (al / root be) <= conv l u be a0 - Phi (a0 / root be)).
    { apply (deriv_nonpos (fun z => conv l u be z - Phi (z / root be)) (fun z => (prod_int be z u - prod_int be z l) - c * exp (- (z * z) / (2 * (root be * root be))) / root be)); [|apply Rmin_l|].
      - intros z. apply derivable_pt_lim_minus; [apply conv_deriv | apply target_deriv].
      - intros z _. unfold prod_int. set (k := c * exp (- (z * z) / (2 * (root be * root be))) / root be).
        assert (0 < k) by (unfold k; apply Rdiv_lt_0_compat; [apply Rmult_lt_0_compat; [lra | apply exp_pos] | lra]).
        pose proof (phi_range (root be * u + z * be / root be)). pose proof (phi_range (root be * l + z * be / root be)). nra. }
    pose proof (phi_range (a0 / root be)). lra.
  Qed.
  Lemma conv_lower l u be al : l <= u -> Phi (al / root be) - 1 + (Phi u - Phi l) <= conv l u be al.
  Proof.
    intros L. assert (U := conv_upper l u (- be) (- al) L). replace (root (- be)) with (root be) in U by (unfold root; f_equal; ring).
    rewrite (normal_mirror Phi HPhi (al / root be)). replace (- (al / root be)) with (- al / root be) by (unfold Rdiv; ring).
    assert (S : conv l u be al + conv l u (- be) (- al) = Phi u - Phi l); [|lra].
    unfold conv. rewrite <- (RInt_plus (V := R_CompleteNormedModule)) by apply dens_int.
    rewrite (RInt_ext (V := R_CompleteNormedModule) _ (fun y => c * bell y)).
    - apply is_RInt_unique. apply (is_RInt_derive Phi (fun y => c * bell y)); [intros; apply phi_derive|].
      intros x _. apply (continuous_mult (fun _ => c) bell); [apply continuous_const | apply bell_continuous].
    - intros x _. unfold plus; cbn. unfold dens. replace (- al + - be * x) with (- (al + be * x)) by ring. rewrite (normal_mirror Phi HPhi (al + be * x)). ring.
  Qed.
End Conv.
