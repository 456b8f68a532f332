(** The epsilon that a composed distribution reports. *)
From Verif Require Import Base XReal Exn PyDict ModelCommon ModelPmf ModelPld ModelMake SpecDP SpecPmf SpecPld SpecMake SpecNear
  ProofDP ProofPmf ProofPld ProofPldApi ProofSelf ProofSelfDP ProofTwo ProofNear ProofNearTwo ProofTightEps.

Lemma epsilon_at_most D e1 delta : wf_pld D -> 0 <= e1 -> pld_delta D (Fin e1) < delta ->
  exists e, pld_epsilon D delta = Ok (Fin e) /\ 0 <= e <= e1.
Proof.
  intros WF H0 HD. destruct (inf_below D e1 WF) as [I1 I2]. destruct WF as (W1 & W2 & WS).
  destruct (pld_epsilon_spec D delta W1 W2 WS) as [[_ [K|K]]|(_ & _ & e & E & E0 & _ & Sm)]; [lra | lra |].
  exists e. split; [exact E|]. split; [exact E0|].
  destruct (Rle_dec e e1) as [L|L]; [exact L|]. exfalso.
  specialize (Sm ltac:(left; lra) ltac:(left; lra) e1 ltac:(lra)). lra.
Qed.

Lemma near_epsilon pess c0 r0 D0 l D E eps d delta :
  subproper_pld pess D0 -> 0 <= c0 -> 0 <= r0 -> Forall (step_ok pess) l ->
  compose_all D0 (map pair_of l) = Ok D ->
  interaction (pld_near c0 r0 D0 :: map step_class l) E ->
  0 <= eps -> dp_both E eps d ->
  d + r0 + rsum (fun s => step_slack s + if pess then step_tail s else 0) l < delta ->
  exists e, pld_epsilon D delta = Ok (Fin e) /\ 0 <= e <= eps + (c0 + rsum step_shift l).
Proof.
  intros S0 Hc Hr HF HD HI H0 HE HL.
  destruct (near_all pess c0 r0 D0 l S0 Hc Hr HF D E HD HI) as [(W & _) _].
  assert (P : 0 <= rsum step_shift l).
  { apply rsum_nonneg. intros x Hx. rewrite Forall_forall in HF. apply (HF x Hx). }
  apply epsilon_at_most; [assumption | lra |].
  eapply Rle_lt_trans; [|exact HL].
  apply (near_accounting pess c0 r0 D0 l D E _ d S0 Hc Hr HF HD HI).
  replace (eps + (c0 + rsum step_shift l) - (c0 + rsum step_shift l)) with eps by lra. assumption.
Qed.

Section TwoEps.
  Context {O : Type} (eqb : O -> O -> bool) (eqb_ok : forall a b, eqb a b = true <-> a = b).
  Lemma two_self_eps fast_len lower upper disc bound sym D n tail r E eps d delta :
    (forall k, (k <= fast_len k)%nat) ->
    0 < disc -> distribution lower -> distribution upper ->
    (sym = true -> forall eps, hockey_stick (swap (two_exper eqb upper lower)) eps = hockey_stick (two_exper eqb upper lower) eps) ->
    from_two_pmfs eqb lower upper true disc bound sym = Ok D -> 0 <= tail ->
    pld_self_compose fast_len D n tail = Ok r ->
    interaction (repeat (eq (two_exper eqb upper lower)) (Z.to_nat n)) E ->
    0 <= eps -> dp_both E eps d -> d + IZR n * two_slack true bound lower upper + 2 * tail < delta ->
    exists e, pld_epsilon r delta = Ok (Fin e) /\ 0 <= e <= eps + IZR n * disc /\ dp_both E e delta.
  Proof.
    intros Hf Hd D1 D2 HS HD Ht H HI H0 HE HL.
    destruct (two_pessimistic eqb eqb_ok _ _ _ _ _ _ Hd D1 D2 HD) as (S & _).
    pose proof S as ((W1 & I1 & P1) & (W2 & I2 & P2) & SY).
    destruct (pld_self_inv _ _ _ _ _ H SY) as (C1 & C2 & SR).
    pose proof (self_compose_ok _ _ _ _ _ Hf W1 I1 Ht C1) as K1.
    pose proof (self_compose_ok _ _ _ _ _ Hf W2 I2 Ht C2) as K2.
    assert (WR : wf_pld r) by (split; [apply (so_wf _ _ _ _ K1) | split; [apply (so_wf _ _ _ _ K2) | assumption]]).
    assert (Hn : (0 < n)%Z).
    { destruct (Z_lt_le_dec 0 n); [assumption|]. exfalso. unfold pmf_self_compose in C1.
      destruct (pmf_body (pmf_remove D)).
      - destruct (Z.leb_spec n 0); [discriminate | lia].
      - unfold dense_self_compose in C1. destruct (Z.leb_spec n 0); [discriminate | lia]. }
    assert (Pn : 0 <= IZR n * disc) by (apply Rmult_le_pos; [apply IZR_le; lia | lra]).
    assert (B : pld_bounds D (two_exper eqb upper lower)).
    { apply (two_bounds eqb eqb_ok _ _ _ _ _ _ Hd D1 D2 HD). intros E1 e. rewrite HS by assumption. lra. }
    destruct (epsilon_at_most r (eps + IZR n * disc) delta WR) as (e & E1 & E2); [lra | |].
    - destruct (two_self eqb eqb_ok fast_len lower upper disc bound sym D n tail r E (eps + IZR n * disc)
        Hf Hd D1 D2 HS HD Ht H HI) as [_ U].
      eapply Rle_lt_trans; [|exact HL]. apply U.
      replace (eps + IZR n * disc - IZR n * disc) with eps by lra. assumption.
    - exists e. split; [assumption|]. split; [assumption|].
      refine (proj2 (self_adaptive fast_len D n tail r E Hf S Ht H _) delta e E1).
      eapply inter_impl; [|exact HI]. intros X <-. exact B.
  Qed.
End TwoEps.

Lemma bit_dp : dp_both (two_exper Z.eqb bit_upper bit_lower) (ln 2) 0.
Proof.
  split; apply dp_iff_hockey; rewrite ?bit_swap, bit_late; apply Rle_refl.
Qed.
