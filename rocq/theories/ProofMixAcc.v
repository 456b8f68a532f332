(** The privacy loss distribution of a mixture of Gaussians: an upper bound up to the error of the
    numerical inversion, with a small infinity mass. *)
From Coq Require Import Lra.
From Verif Require Import Base XReal Exn PyDict TypesAdjacency ModelPmf ModelPld ModelMake ModelMech ModelSearch ModelMixture SpecDP SpecPmf SpecPld SpecMech SpecMake SpecClasses SpecConstruct SpecSearch SpecNoiseAcc SpecMixture SpecAccErr
  ProofDP ProofDict ProofPmf ProofPld ProofDots ProofPeak ProofTailClasses ProofConstruct ProofMix ProofMixLaw ProofMixInv ProofMixDelta ProofMixDom ProofMixPld ProofMixTotal ProofMixRef ProofMixEnd ProofErrDots.
Local Arguments Rltb : simpl never.
Local Arguments Rleb : simpl never.
Local Arguments Reqb : simpl never.

Section Extreme.
  Context (Phi ppf : R -> R) (HPhi : normal_cdf Phi) (HQ : quantile_of Phi ppf) (sigma : R) (Hs : 0 < sigma) (comps : list (R * R)).
  Hypothesis ok : forall c, In c comps -> 0 <= fst c /\ 0 < snd c.
  Hypothesis total : rsum snd comps = 1.
  Hypothesis some : exists c, In c comps /\ 0 < fst c.
  Context (smax : R) (Hmax : forall c, In c comps -> fst c <= smax).
  Notation U := (upper Phi sigma comps).
  Notation L := (lower Phi sigma comps).

  Lemma extreme_query adj cuts : StronglySorted Rlt cuts ->
    mixture_query (normal_law Phi sigma) comps (match adj with REMOVE => observe (U REMOVE) (L REMOVE) cuts | ADD => swap (observe (U ADD) (L ADD) cuts) end).
  Proof.
    intros SC. assert (Z : normal_law Phi sigma = add_noise (normal_law Phi sigma) 0) by apply zero_law.
    destruct adj.
    - exists 0, (map fst comps), cuts. split; [|split; [exact SC|]].
      + clear -ok. induction comps as [|c l IH]; [constructor|]. cbn [map]. constructor; [rewrite Rabs_right; [lra | apply Rle_ge, ok; left; reflexivity]|]. apply IH. intros c' I. apply ok. right. exact I.
      + rewrite swap_observe. f_equal; [|exact Z]. apply FunctionalExtensionality.functional_extensionality. intros x. unfold lower. cbn [mixture_lower]. rewrite Rminus_0_r.
        f_equal. clear. induction comps as [|[s p] l IH]; [reflexivity|]. cbn. f_equal. exact IH.
    - exists 0, (map (fun c => - fst c) comps), cuts. split; [|split; [exact SC|]].
      + clear -ok. induction comps as [|c l IH]; [constructor|]. cbn [map]. constructor; [rewrite Rabs_Ropp, Rabs_right; [lra | apply Rle_ge, ok; left; reflexivity]|]. apply IH. intros c' I. apply ok. right. exact I.
      + f_equal; [|exact Z]. apply FunctionalExtensionality.functional_extensionality. intros x. unfold upper. cbn [mixture_upper]. rewrite Rminus_0_r. change (law Phi sigma) with (normal_law Phi sigma).
        f_equal. clear. induction comps as [|[s p] l IH]; [reflexivity|]. cbn. f_equal. exact IH.
  Qed.

  (** beyond the loss at [x] the divergence is at most the mass below [x] *)
  Lemma mixture_beyond adj x l cuts : mloss sigma comps adj x <= l -> StronglySorted Rlt cuts ->
    hockey_stick (observe (U adj) (L adj) cuts) l <= U adj x.
  Proof.
    intros HL SC. destruct (upper_cdf Phi HPhi sigma Hs comps ok total adj) as (U01 & UM & _ & UT). pose proof (lower_cdf Phi HPhi sigma Hs comps ok total adj) as CL. pose proof CL as (L01 & _).
    pose proof (exp_pos l) as El.
    assert (G : forall y, U adj y - exp l * L adj y <= U adj x).
    { intros y. destruct (Rle_dec x y) as [H|H].
      - pose proof (gap_down (U adj) (L adj) (mloss sigma comps adj) CL (mix_ratio Phi HPhi sigma Hs comps ok total adj) l x y H HL) as K. unfold gap in K. pose proof (L01 x). nra.
      - pose proof (UM y x ltac:(lra)). pose proof (L01 y). nra. }
    assert (G1 : 1 - exp l <= U adj x).
    { apply Rnot_lt_le. intros N. destruct (UT (1 - exp l - U adj x) ltac:(lra)) as [y Hy]. pose proof (G y). pose proof (L01 y). nra. }
    assert (Wn : forall c, In c comps -> 0 <= snd c) by (intros c I; apply Rlt_le, ok, I).
    destruct (dom_query Phi HPhi sigma Hs comps Wn total _ adj (exp l) (U adj x) (extreme_query adj cuts SC) (Rlt_le _ _ El) (proj1 (U01 x)) G1 G) as [_ B].
    rewrite hockey_hs. destruct adj; [|exact B]. cbn iota in B. replace (swap (swap (observe (U ADD) (L ADD) cuts))) with (observe (U ADD) (L ADD) cuts) in B by (rewrite !swap_observe; reflexivity). exact B.
  Qed.
End Extreme.

Lemma mixture_class Phi ppf fuel sigma sens probs disc lb D smax : normal_cdf Phi -> quantile_of Phi ppf -> 0 < disc ->
  from_mixture_gaussian_mechanism Phi ppf fuel sigma sens probs true disc lb true = Ok D ->
  rsum (fun p => p) probs = 1 -> (forall s, In s sens -> s <= smax) ->
  one_sensitivity (combine sens probs) \/ 2 / 10 ^ 8 <= positive_part (combine sens probs) ->
  0 < sigma /\ sound_pld D /\
  (forall E, mixture_query (normal_law Phi sigma) (combine sens probs) E -> pld_within (mixture_error sigma smax (positive_part (combine sens probs))) D E) /\
  infinity_mass (pmf_remove D) <= 1/2 * exp lb /\ infinity_mass (pmf_add D) <= 1/2 * exp lb.
Proof.
  intros HPhi HQ Hd H HT HM HO. unfold from_mixture_gaussian_mechanism in H.
  destruct (new_mixture sigma sens probs lb) as [comps|] eqn:EN; [|discriminate]. cbn [bind] in H.
  destruct (new_mixture_ok _ _ _ _ _ EN HT) as (Hs & Hlb & EL & EC & ok & total & some & Wn & Wt).
  unfold mx_pmf in H. cbn [andb] in H. destruct (mx_dots_pmf Phi ppf fuel sigma comps true lb REMOVE disc) as [r|] eqn:ER; [|discriminate]. cbn [bind] in H.
  destruct (mx_dots_pmf Phi ppf fuel sigma comps true lb ADD disc) as [a|] eqn:EA; [|discriminate]. cbn [bind] in H. injection H as <-.
  set (cs := combine sens probs) in *. set (q := positive_part cs).
  assert (Hmax : forall c, In c comps -> fst c <= smax).
  { intros c I. rewrite EC in I. apply filter_In in I as (I & _). destruct c as [s p]. apply HM. apply in_combine_l in I. exact I. }
  assert (QE : positive_part comps = q) by (rewrite EC; apply drop_positive).
  assert (HO' : one_sensitivity comps \/ 2 / 10 ^ 8 <= positive_part comps).
  { destruct HO as [O|Lq]; [left | right; rewrite QE; exact Lq]. intros c c' I I'. rewrite EC in I, I'. apply filter_In in I as (I & _). apply filter_In in I' as (I' & _). apply O; assumption. }
  set (err := mixture_error sigma smax q).
  assert (E0 : 0 <= err) by (unfold err; rewrite <- QE; apply (err_nonneg sigma Hs comps ok total smax Hmax)).
  assert (VE : forall E, mixture_query (normal_law Phi sigma) cs E -> valid E).
  { intros E HE. apply (dom_query Phi HPhi sigma Hs cs Wn Wt E REMOVE 0 2 HE); try lra. intros x. rewrite <- drop_upper. fold cs. rewrite <- EC. destruct (upper_cdf Phi HPhi sigma Hs comps ok total REMOVE) as (B & _). specialize (B x). unfold upper in B. change (law Phi sigma) with (normal_law Phi sigma) in *. lra. }
  assert (K : forall adj p, mx_dots_pmf Phi ppf fuel sigma comps true lb adj disc = Ok p ->
    sound_pmf p /\ infinity_mass p <= 1/2 * exp lb /\
    forall E, mixture_query (normal_law Phi sigma) cs E -> profile_bounds (fun e => pmf_delta p (Fin e) + err) (match adj with REMOVE => E | ADD => swap E end)).
  { intros adj p HP. destruct (dots_anchored Phi ppf HPhi HQ sigma Hs comps ok total some smax Hmax adj fuel lb disc p Hd Hlb HO' HP) as (l & u & ds & CD & F & t & ET & LT).
    assert (LU : (l <= u)%Z) by (unfold connect_dots_fixed_gap in CD; destruct (Z.ltb_spec u l); [discriminate | lia]).
    rewrite (fixed_gap_eq disc Hd) in CD. split; [apply (dots_sound disc _ _ _ Hd CD)|]. split.
    - assert (Iu : In u (zrange l (Z.to_nat (u - l + 1)))) by (apply zrange_In; lia).
      destruct (dots_ok disc Hd _ _ _ CD) as (C1 & C2 & _). rewrite C1 in Iu. apply in_map_iff in Iu as ([z d] & Ez & I). cbn [fst] in Ez. subst z.
      eapply Rle_trans; [apply (dots_last disc _ _ _ u d Hd CD I)|].
      pose proof (combine_map_nearly disc _ _ _ F u d I) as (_ & cuts & SC & B). eapply Rle_trans; [exact B|].
      rewrite (mx_loss_eq sigma Hs comps ok total) in LT.
      eapply Rle_trans; [apply (mixture_beyond Phi HPhi sigma Hs comps ok total adj (lower_x_truncation t) (IZR u * disc) cuts LT SC)|].
      destruct (mixture_tail Phi HPhi sigma sens probs lb comps EN HT ppf HQ adj fuel true t ET) as [TL _].
      rewrite <- (kept_upper sigma sens probs lb comps EN HT) in TL. exact TL.
    - intros E HE. set (E' := match adj with REMOVE => E | ADD => swap E end). assert (V' : valid E') by (unfold E'; destruct adj; [apply valid_swap|]; apply VE, HE).
      apply (dots_within disc _ _ _ E' err Hd CD V' E0). intros z d I.
      pose proof (combine_map_nearly disc _ _ _ F z d I) as N. apply nearly_gap in N as (N0 & N1 & N2). fold q in QE. rewrite QE in *. fold err in N0, N1, N2.
      destruct (dom_query Phi HPhi sigma Hs cs Wn Wt E adj (exp (IZR z * disc)) (d + err) HE (exp_pos_nonneg _) N0 N1) as (_ & B).
      + intros x. rewrite <- drop_upper, <- drop_lower. fold cs. rewrite <- EC. apply N2.
      + unfold E'. destruct adj; exact B. }
  destruct (K REMOVE r ER) as (S1 & I1 & B1). destruct (K ADD a EA) as (S2 & I2 & B2). cbn iota in B1, B2.
  split; [exact Hs|]. cbn [new_pld pmf_remove pmf_add symmetric]. split; [split; [exact S1|]; split; [exact S2 | discriminate]|]. split; [|split; assumption].
  intros E HE. split; [apply VE, HE|]. split; [apply B1, HE | apply B2, HE].
Qed.
