(** Connect-the-dots may raise when the grid meets the limit of the privacy loss. *)
From Verif Require Import Base XReal Exn PyDict TypesAdjacency ModelLog ModelPmf ModelPld ModelMake ModelMech SpecDP SpecPmf SpecPld SpecMech SpecClasses SpecConstruct SpecAccErr
  ProofDP ProofDict ProofPmf ProofPeak ProofNoise ProofShape ProofAdditive ProofClasses ProofMechTop ProofNoiseNear ProofTails.
Local Arguments Rltb : simpl never.
Local Arguments Rleb : simpl never.
Local Arguments Reqb : simpl never.

Lemma existsb_rdiff l1 x y l2 : x < y -> existsb (fun d => Rltb 0 d) (rdiff (l1 ++ x :: y :: l2)) = true.
Proof.
  intros H. induction l1 as [|a l1 IH].
  - cbn. rewrite Rltb_true by lra. reflexivity.
  - change ((a :: l1) ++ x :: y :: l2) with (a :: (l1 ++ x :: y :: l2)). destruct l1 as [|b l1]; cbn [app rdiff existsb] in *; rewrite IH; apply orb_true_r.
Qed.
Lemma deltas_at_map m disc f eps : (forall z, get_delta_for_epsilon m (IZR z * disc) = Ok (Fin (f z))) -> deltas_at m disc eps = Ok (map f eps).
Proof. intros H. induction eps as [|z eps IH]; [reflexivity|]. cbn [deltas_at map]. rewrite H, IH. reflexivity. Qed.
Lemma gap_raises disc lo u f z : (lo <= z)%Z -> (z < u)%Z -> f z < f (z + 1)%Z ->
  connect_dots_fixed_gap disc lo u (map f (zrange lo (Z.to_nat (u - lo + 1)))) = Err ValueError.
Proof.
  intros H1 H2 Hf. unfold connect_dots_fixed_gap. rewrite (proj2 (Z.ltb_ge u lo)) by lia.
  rewrite map_length, zrange_length. rewrite (proj2 (Z.eqb_eq _ _)) by lia. cbn [negb].
  destruct (existsb _ _ || existsb _ _)%bool; [reflexivity|]. rewrite (proj2 (Z.eqb_neq lo u)) by lia.
  assert (E : zrange lo (Z.to_nat (u - lo + 1)) = zrange lo (Z.to_nat (z - lo)) ++ z :: (z + 1)%Z :: zrange (z + 1 + 1) (Z.to_nat (u - z - 1))).
  { replace (Z.to_nat (u - lo + 1)) with (Z.to_nat (z - lo) + S (S (Z.to_nat (u - z - 1))))%nat by lia.
    rewrite zrange_app. f_equal. cbn [zrange]. replace (lo + Z.of_nat (Z.to_nat (z - lo)))%Z with z by lia. reflexivity. }
  rewrite E, map_app. cbn [map]. rewrite existsb_rdiff by exact Hf. reflexivity.
Qed.

Section Raise.
  Context (b s q disc : R) (z : Z).
  Hypothesis Hb : 0 < b.
  Hypothesis Hs : 0 < s.
  Hypothesis Hq : 0 < q < 1.
  Hypothesis Hd : 0 < disc.
  (** the grid point is above the limit, but close to it; the next one is not close *)
  Hypothesis Hpos : loss_limit REMOVE q < IZR z * disc.
  Hypothesis Hnear : near_limit REMOVE q (IZR z * disc).
  Hypothesis Hnext : ~ near_limit REMOVE q (IZR (z + 1) * disc).
  Hypothesis Hneg : IZR (z + 1) * disc <= 0.
  (** there is little noise *)
  Hypothesis Hsmall : exp (- (s / (2 * b))) < exp (IZR z * disc) - (1 - q).

  Let m := additive s q REMOVE (laplace_cdf b) (laplace_loss0 b s REMOVE) (laplace_inverse0 b s REMOVE) false (laplace_tail b s q REMOVE) (laplace_bounds b s q REMOVE).
  Lemma r_m : LaplacePrivacyLoss b s q REMOVE = Ok m.
  Proof. unfold LaplacePrivacyLoss. rewrite Rleb_false by lra. rewrite check_additive_true by lra. reflexivity. Qed.
  Let HF := laplace_fits b s Hb Hs.
  Let Hq' : 0 < q <= 1.
  Proof. lra. Qed.
  Lemma r_zneg : IZR z * disc < 0.
  Proof. rewrite plus_IZR in Hneg. nra. Qed.
  Lemma r_at : get_delta_for_epsilon m (IZR z * disc) = Ok (Fin (1 - exp (IZR z * disc))).
  Proof.
    pose proof r_zneg as N. pose proof (exp_pos (IZR z * disc)) as EP. assert (E1 : exp (IZR z * disc) < 1) by (rewrite <- exp_0; apply exp_increasing, N).
    unfold m. cbn [additive get_delta_for_epsilon]. unfold a_get_delta, a_inverse_privacy_loss. rewrite !Reqb_false by lra.
    change (np_log1p (Fin (- q))) with (np_log (Fin (1 + - q))). replace (1 + - q) with (1 - q) by ring.
    rewrite (limit_val q REMOVE) by lra. rewrite (proj2 (isclose_near q REMOVE _ ltac:(lra)) Hnear).
    cbn [xltb]. rewrite Rltb_true by exact Hpos.
    assert (EI : laplace_inverse0 b s REMOVE MInf = Ok PInf).
    { unfold laplace_inverse0. cbn [xmul]. unfold inf_times. rewrite Rltb_true by lra. reflexivity. }
    rewrite EI. cbn [bind]. rewrite (get_delta_at_any _ _ _ _ _ HF q Hq' REMOVE _ PInf) by discriminate.
    unfold delta_at. cbn [upper_law lower_law at_end]. rewrite Rmax_right by lra. do 2 f_equal. ring.
  Qed.
  Lemma r_next d : get_delta_for_epsilon m (IZR (z + 1) * disc) = Ok (Fin d) -> 1 - exp (IZR z * disc) < d.
  Proof.
    set (e := IZR (z + 1) * disc) in *. unfold m. cbn [additive get_delta_for_epsilon]. rewrite (get_delta_exact _ _ _ _ _ HF q Hq' REMOVE e Hnext). intros [= <-].
    eapply Rlt_le_trans; [|apply (delta_at_best _ _ _ _ _ HF q Hq' REMOVE e (Fin (- (s / 2)))); discriminate].
    rewrite (delta_at_remove _ s q). cbn [xadd at_end]. unfold laplace_law. rewrite (Rltb_false (- (s / 2) + s)), Rltb_true by lra.
    replace (- (- (s / 2) + s) / b) with (- (s / (2 * b))) by (field; lra). replace (- (s / 2) / b) with (- (s / (2 * b))) by (field; lra).
    set (t := exp (- (s / (2 * b)))) in *. assert (0 < t) by apply exp_pos.
    assert (exp e <= 1) by (rewrite <- exp_0; apply exp_le; exact Hneg). pose proof (exp_pos e). nra.
  Qed.
  Lemma dots_raise fuel : from_laplace_mechanism fuel b s true disc q true = Err ValueError.
  Proof.
    unfold from_laplace_mechanism, subsampled_pld. rewrite r_m. cbn [bind]. unfold monotone_pmf. cbn [andb].
    assert (DF : forall y, exists d, get_delta_for_epsilon m (IZR y * disc) = Ok (Fin d)).
    { intros y. destruct (delta_nearly m _ _ _ s q REMOVE (laplace_noise m b s q REMOVE r_m) (IZR y * disc)) as (d & dl & E & _). exists d. exact E. }
    set (f := fun y => match get_delta_for_epsilon m (IZR y * disc) with Ok (Fin d) => d | _ => 0 end).
    assert (Hf : forall y, get_delta_for_epsilon m (IZR y * disc) = Ok (Fin (f y))) by (intros y; unfold f; destruct (DF y) as [d ->]; reflexivity).
    unfold dots_pmf. change (connect_dots_bounds m) with (laplace_bounds b s q REMOVE). change (is_discrete m) with false. unfold laplace_bounds. rewrite Reqb_false by lra.
    cbn [bind]. assert (RX : forall (r : bool) a, round_xr r (xdiv (Fin a) (Fin disc)) = Ok (round_fn r (a / disc))) by (intros; cbn [xdiv]; rewrite Reqb_false by lra; reflexivity).
    rewrite !RX. cbn [bind round_fn]. set (c := s / b) in *. set (U := ln (1 - q + q * exp c)). set (Lo := ln (1 - q + q * exp (- c))).
    rewrite (deltas_at_map m disc f) by exact Hf. cbn [bind].
    assert (Hc : 0 < c) by (apply Rdiv_lt_0_compat; assumption).
    rewrite (gap_raises disc _ _ f z); [reflexivity | | |].
    - assert (LL : Lo < IZR z * disc).
      { unfold Lo. rewrite <- (ln_exp (IZR z * disc)). apply ln_increasing; [pose proof (exp_pos (- c)); nra|].
        assert (exp (- c) <= exp (- (s / (2 * b)))) by (apply exp_le; unfold c; replace (s / (2 * b)) with (s / b * (1/2)) by (field; lra); fold c; lra).
        pose proof (exp_pos (- c)). nra. }
      apply le_IZR. pose proof (Rfloor_spec (Lo / disc)). apply Rle_trans with (Lo / disc); [lra|]. left. apply (Rmult_lt_reg_r disc); [assumption|].
      unfold Rdiv. rewrite Rmult_assoc, Rinv_l by lra. lra.
    - assert (UU : 0 <= U).
      { unfold U. rewrite <- ln_1. apply ln_le_iff; [lra | |]; assert (1 <= exp c) by (rewrite <- exp_0; apply exp_le; lra); nra. }
      apply lt_IZR. pose proof (Rceil_spec (U / disc)). assert (0 <= U / disc) by (apply Rmult_le_pos; [assumption | left; apply Rinv_0_lt_compat; assumption]).
      pose proof r_zneg. nra.
    - pose proof (Hf z) as Ez. rewrite r_at in Ez. injection Ez as <-. apply r_next, Hf.
  Qed.
End Raise.
