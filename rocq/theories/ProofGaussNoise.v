(** The searches for the smallest Gaussian noise. *)
From Coq Require Import FunctionalExtensionality.
From Verif Require Import Base XReal Exn TypesAdjacency SpecDP SpecPmf SpecPld SpecMech SpecClasses SpecConstruct SpecSearch SpecNoiseAcc ModelPmf ModelPld ModelMake ModelSearch ModelSmallest ModelMech ModelNoise
  ProofDP ProofShape ProofShapeGauss ProofPeak ProofNormal ProofGdp ProofGdpSeq ProofRefine ProofRdpAtom ProofAccSound
  ProofClasses ProofMechTop ProofConstruct ProofConstructEx ProofGuarantee ProofAdvanced ProofSmallestEx ProofFindNoise.
Local Open Scope R_scope.
Local Arguments Rltb : simpl never.
Local Arguments Rleb : simpl never.
Local Arguments Reqb : simpl never.

Section Noise.
  Context (Phi : R -> R) (HPhi : normal_cdf Phi).
  Notation law sigma := (fun y => Phi (y / sigma)).

  Lemma plain_gdom sigma s E : 0 < sigma -> 0 < s -> noisy_query any_value (law sigma) 1 s E -> gdom Phi (s / sigma) E /\ gdom Phi (s / sigma) (swap E).
  Proof.
    intros Hs Hn HE. replace (s / sigma) with (1 / (sigma / s)) by (field; lra).
    apply query_gdom; [assumption | apply Rdiv_lt_0_compat; assumption|]. exists s. split; [assumption|].
    replace (fun x => normal_law Phi (sigma / s) (x / s)) with (law sigma); [exact HE|].
    apply functional_extensionality. intros x. unfold normal_law. f_equal. field. lra.
  Qed.
  Lemma mix_hs E F q a b mu (g : outcome E -> outcome F) (w : outcome E -> R) : 0 <= q <= 1 -> 0 < mu -> 0 < a -> 0 < b ->
    outs F = map g (outs E) -> rsum w (outs E) = 1 -> gdom Phi mu F ->
    (forall o, In o (outs E) -> pos (a * prP E o - b * prQ E o) <= q * pos (a * prP F (g o) - b * prQ F (g o)) + (1 - q) * (pos (a - b) * w o)) ->
    hs E a b <= test Phi mu a b (thr mu a b).
  Proof.
    intros Hq Hm Ha Hb O W (_ & G) H. specialize (G a b Ha Hb). destruct (test_nonneg Phi HPhi mu a b Hm Ha Hb) as [T1 T2].
    assert (P : pos (a - b) <= test Phi mu a b (thr mu a b)) by (unfold pos; apply Rmax_lub; assumption).
    unfold hs. eapply Rle_trans; [apply rsum_le; exact H|]. rewrite rsum_plus, !rsum_scal.
    assert (E1 : rsum (fun o => pos (a * prP F (g o) - b * prQ F (g o))) (outs E) = hs F a b) by (unfold hs; rewrite O, rsum_map_eq; reflexivity).
    rewrite E1, W. nra.
  Qed.
  Lemma pos_mix q x y p : 0 <= q <= 1 -> 0 <= p -> pos (q * x + (1 - q) * (y * p)) <= q * pos x + (1 - q) * (pos y * p).
  Proof.
    intros Hq Hp. unfold pos. pose proof (Rmax_l 0 x). pose proof (Rmax_r 0 x). pose proof (Rmax_l 0 y). pose proof (Rmax_r 0 y).
    assert (y * p <= Rmax 0 y * p) by (apply Rmult_le_compat_r; assumption). assert (0 <= Rmax 0 y * p) by (apply Rmult_le_pos; assumption).
    apply Rmax_lub; [nra|]. assert (q * x <= q * Rmax 0 x) by (apply Rmult_le_compat_l; lra). assert ((1 - q) * (y * p) <= (1 - q) * (Rmax 0 y * p)) by (apply Rmult_le_compat_l; lra). lra.
  Qed.
  Lemma sampled_gdom sigma s q E : 0 < sigma -> 0 < s -> 0 < q <= 1 -> noisy_query any_value (law sigma) q s E -> gdom Phi (s / sigma) E /\ gdom Phi (s / sigma) (swap E).
  Proof.
    intros Hs Hn Hq0 (v & d & cuts & A1 & A2 & Hd & SC & ->). set (P0 := add_noise (law sigma) v). set (P1 := add_noise (law sigma) (v + d)).
    assert (Hq : 0 <= q <= 1) by lra.
    assert (X : forall u, is_cdf (add_noise (law sigma) u)).
    { intros u. apply (ProofGaussRdp.scaled_cdf Phi sigma u Hs). apply HPhi. }
    assert (HF : noisy_query any_value (law sigma) 1 s (observe P1 P0 cuts)).
    { exists v, d, cuts. repeat split; try assumption. f_equal. apply functional_extensionality. intros x. unfold sampled, P1. ring. }
    destruct (plain_gdom sigma s _ Hs Hn HF) as [G1 G2].
    assert (V : valid (observe (sampled q P0 P1) P0 cuts)).
    { apply (noisy_valid any_value (law sigma) q s); [exact (gaussian_is_cdf Phi sigma HPhi Hs) | exact Hq0|]. exists v, d, cuts. auto 6. }
    assert (V1 : valid (observe P1 P0 cuts)) by (apply observe_valid; try assumption; apply X).
    assert (M : 0 < s / sigma) by (apply Rdiv_lt_0_compat; assumption).
    assert (S : forall y, at_end (sampled q P0 P1) y = (1 - q) * at_end P0 y + q * at_end P1 y) by (intros [y| | |]; cbn; unfold sampled; ring).
    split; split; try (apply valid_swap); try exact V; intros a b Ha Hb.
    - destruct V1 as (N & _ & NQ). apply (mix_hs (observe (sampled q P0 P1) P0 cuts) (observe P1 P0 cuts) q a b (s / sigma) (fun o => o) (prQ (observe P1 P0 cuts)) Hq M Ha Hb); [cbn; rewrite map_id; reflexivity | exact NQ | exact G1|].
      intros o Ho. destruct (N o Ho) as [_ N2]. cbn [observe prP prQ] in *. rewrite !S. eapply Rle_trans; [|apply pos_mix; assumption]. right. f_equal. ring.
    - destruct V1 as (N & _ & NQ). apply (mix_hs (swap (observe (sampled q P0 P1) P0 cuts)) (swap (observe P1 P0 cuts)) q a b (s / sigma) (fun o => o) (prQ (observe P1 P0 cuts)) Hq M Ha Hb); [cbn; rewrite map_id; reflexivity | exact NQ | exact G2|].
      intros o Ho. destruct (N o Ho) as [_ N2]. cbn [observe prP prQ swap] in *. rewrite !S. eapply Rle_trans; [|apply pos_mix; assumption]. right. f_equal. ring.
  Qed.

  Lemma repeat_gdom mu (C : exper -> Prop) n E : 0 < mu -> (0 < n)%nat -> (forall F, C F -> gdom Phi mu F /\ gdom Phi mu (swap F)) ->
    interaction (repeat C n) E -> gdom Phi (sqrt (INR n) * mu) E /\ gdom Phi (sqrt (INR n) * mu) (swap E).
  Proof.
    intros Hm Hn HC HE.
    assert (F : Forall2 (gclass Phi) (repeat mu n) (repeat C n)).
    { clear -Hm HC. induction n; cbn; constructor; [|exact IHn]. split; assumption. }
    assert (EQ : sqrt (squares (repeat mu n)) = sqrt (INR n) * mu).
    { rewrite <- (sqrt_square mu) at 2 by lra. rewrite <- sqrt_mult_alt by apply pos_INR. f_equal.
      clear. unfold squares. induction n as [|n IH]; [cbn; ring|]. rewrite S_INR. cbn [repeat rsum]. rewrite IH. ring. }
    rewrite <- EQ. apply (gdom_interaction Phi HPhi _ _ HE _ F). destruct n; [lia | discriminate].
  Qed.
  Lemma dominated_dp sigma s eps delta E : 0 < sigma -> 0 < s -> gdom Phi (s / sigma) E -> gdom Phi (s / sigma) (swap E) ->
    (forall F, noisy_query any_value (law sigma) 1 s F -> dp_both F eps delta) -> dp_both E eps delta.
  Proof.
    intros Hs Hn (V & G1) (_ & G2) B.
    assert (Q : forall d t, Rabs d <= s -> noisy_query any_value (law sigma) 1 s (observe (sampled 1 (add_noise (law sigma) 0) (add_noise (law sigma) (0 + d))) (add_noise (law sigma) 0) [t])).
    { intros d t Hd. exists 0, d, [t]. repeat split; try assumption. repeat constructor. }
    pose proof (exp_pos eps) as Pe. set (t := thr (s / sigma) 1 (exp eps)).
    split; apply dp_iff_hockey; rewrite hockey_hs.
    - eapply Rle_trans; [apply G1; [lra | exact Pe]|]. fold t.
      destruct (B _ (Q (- s) (t * sigma) ltac:(rewrite Rabs_Ropp, Rabs_pos_eq; lra))) as [B1 _]. apply dp_iff_hockey in B1. rewrite hockey_hs in B1.
      eapply Rle_trans; [|exact B1]. eapply Rle_trans; [|apply half_line]. unfold test, sampled, add_noise.
      replace ((t * sigma - (0 + - s)) / sigma) with (t + s / sigma) by (field; lra). replace ((t * sigma - 0) / sigma) with t by (field; lra). lra.
    - eapply Rle_trans; [apply G2; [lra | exact Pe]|]. fold t.
      destruct (B _ (Q s ((t + s / sigma) * sigma) ltac:(rewrite Rabs_pos_eq; lra))) as [_ B1]. apply dp_iff_hockey in B1. rewrite hockey_hs, swap_observe in B1.
      eapply Rle_trans; [|exact B1]. eapply Rle_trans; [|apply half_line]. unfold test, sampled, add_noise.
      replace (((t + s / sigma) * sigma - (0 + s)) / sigma) with t by (field; lra). replace (((t + s / sigma) * sigma - 0) / sigma) with (t + s / sigma) by (field; lra). lra.
  Qed.

  (** With the returned noise, the interaction is private also on samples. *)
  Lemma gaussian_noise_any ppf fuel eps delta pp n s x : privacy_parameters eps delta = Ok pp -> (1 <= n)%Z -> 0 < s ->
    smallest_gaussian_noise Phi ppf fuel pp n s = Ok x ->
    exists sigma, x = Fin sigma /\ 0 < sigma /\
      forall q, 0 < q <= 1 -> forall E, interaction (repeat (noisy_query any_value (law sigma) q s) (Z.to_nat n)) E -> dp_both E eps delta.
  Proof.
    intros HP Hn Hs. destruct (params_inv _ _ _ HP) as (-> & He & Hd). unfold smallest_gaussian_noise. destruct (Z.ltb_spec n 0); [lia|].
    assert (Pn : 0 < IZR n) by (apply IZR_lt; lia). pose proof (sqrt_lt_R0 _ Pn) as Ps. intros HG.
    assert (Pss : 0 < s * sqrt (IZR n)) by (apply Rmult_lt_0_compat; assumption).
    destruct (gaussian_guarantee Phi ppf fuel eps delta _ _ _ HPhi He Hd Pss HG) as (sigma & -> & Hsig & B).
    exists sigma. split; [reflexivity|]. split; [assumption|]. intros q Hq E HE.
    assert (M : 0 < s / sigma) by (apply Rdiv_lt_0_compat; assumption).
    destruct (repeat_gdom (s / sigma) _ (Z.to_nat n) E M ltac:(lia) (fun F HF => sampled_gdom sigma s q F Hsig Hs Hq HF) HE) as [G1 G2].
    replace (sqrt (INR (Z.to_nat n)) * (s / sigma)) with (s * sqrt (IZR n) / sigma) in * by (rewrite INR_IZR_INZ, Z2Nat.id by lia; field; lra).
    apply (dominated_dp sigma (s * sqrt (IZR n)) eps delta E Hsig Pss G1 G2 B).
  Qed.
  Lemma gaussian_noise_sound ppf fuel eps delta pp n s x : privacy_parameters eps delta = Ok pp -> (1 <= n)%Z -> 0 < s ->
    smallest_gaussian_noise Phi ppf fuel pp n s = Ok x ->
    exists sigma, x = Fin sigma /\ 0 < sigma /\
      forall E, interaction (repeat (noisy_query any_value (law sigma) 1 s) (Z.to_nat n)) E -> dp_both E eps delta.
  Proof.
    intros HP Hn Hs HG. destruct (gaussian_noise_any ppf fuel eps delta pp n s x HP Hn Hs HG) as (sigma & H1 & H2 & H3).
    exists sigma. split; [assumption|]. split; [assumption|]. apply H3. lra.
  Qed.
  Lemma subsampled_noise_sound ppf fast_len fuel eps delta pp n s q x : quantile_of Phi ppf -> (forall k, (k <= fast_len k)%nat) ->
    privacy_parameters eps delta = Ok pp -> (1 <= n)%Z -> 0 < s -> 0 < q <= 1 -> grid_clear (Rmin (1 / 10 ^ 3) (1/10 * eps / IZR n)) q ->
    smallest_subsampled_gaussian_noise Phi ppf fast_len fuel pp n s q = Ok x ->
    exists sigma, x = Fin sigma /\ 0 < sigma /\ (exists top, smallest_gaussian_noise Phi ppf fuel pp n s = Ok (Fin top) /\ sigma <= top) /\
      forall E, interaction (repeat (noisy_query any_value (law sigma) q s) (Z.to_nat n)) E -> dp_both E eps delta.
  Proof.
    intros Hppf Hf HP Hn Hs Hq HG. unfold smallest_subsampled_gaussian_noise.
    destruct (smallest_gaussian_noise Phi ppf fuel pp n s) as [up|] eqn:HU; [|discriminate]. cbn [bind].
    destruct (gaussian_noise_any ppf fuel eps delta pp n s up HP Hn Hs HU) as (top & -> & Ht & B).
    pose proof HP as HP'. destruct (params_inv _ _ _ HP) as (-> & He & Hd). cbn [fst].
    assert (He0 : 0 < eps).
    { unfold smallest_gaussian_noise in HU. destruct (n <? 0)%Z; [discriminate|]. unfold gaussian_from_guarantee in HU. destruct (Reqb delta 0); [discriminate|]. destruct (Reqb_spec eps 0); [discriminate | lra]. }
    assert (Pn : 0 < IZR n) by (apply IZR_lt; lia).
    destruct (smallest_parameter _ _ _ _ _ _ _) as [[x0|]|] eqn:HS; cbn [bind]; [| |discriminate]; intros [= <-].
    - assert (Hdisc : 0 < Rmin (1 / 10 ^ 3) (1/10 * eps / IZR n)) by (apply Rmin_pos; [lra | apply Rdiv_lt_0_compat; lra]).
      destruct (smallest_parameter_sound fast_len default_tail fuel eps delta n (gaussian_for Phi ppf fuel eps n s q)
        (fun sigma => noisy_query any_value (law sigma) q s) 0 (Fin top) None (1 / 10 ^ 7) false x0 Hf default_tail_pos
        (search_up_to_ok _ (Rlt_le _ _ Ht))) as (sg & -> & [R1 R2] & [D HD] & S & _).
      + intros sg D _ HD. unfold gaussian_for in HD. rewrite (proj2 (Z.eqb_neq n 0)) in HD by lia.
        apply (constructed_sound fuel true _ q D any_value (law sg) s Hdisc HG).
        assert (Hb : 0 < sg).
        { unfold from_gaussian_mechanism, subsampled_pld, GaussianPrivacyLoss in HD. destruct (Rleb_spec sg 0); [discriminate | lra]. }
        apply (by_gaussian _ _ true _ _ _ Phi ppf sg s (-50) HPhi Hppf Hb Hs ltac:(lra) HD).
      + exact HS.
      + exists sg. split; [reflexivity|]. apply xleb_fin in R2. split.
        * unfold gaussian_for in HD. rewrite (proj2 (Z.eqb_neq n 0)) in HD by lia.
          unfold from_gaussian_mechanism, subsampled_pld, GaussianPrivacyLoss in HD. destruct (Rleb_spec sg 0); [discriminate | lra].
        * split; [exists top; split; [reflexivity | assumption] | exact S].
    - exists top. split; [reflexivity|]. split; [assumption|]. split; [exists top; split; [reflexivity | lra]|]. apply B. lra.
  Qed.
End Noise.
