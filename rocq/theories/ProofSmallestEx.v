(** Smallest parameters, and instances. *)
From Verif Require Import Base XReal Exn TypesRelation ModelPmf ModelPld ModelMake ModelSearch ModelSmallest
  SpecDP SpecPmf SpecPld SpecSearch SpecSmallest ProofDP ProofParams ProofSearch ProofPld ProofSelfDP ProofAccSound ProofSearchEx ProofAdvanced.
Local Arguments Rltb : simpl never.
Local Arguments Rleb : simpl never.
Local Arguments Reqb : simpl never.

Lemma delta_i_1 : delta_i (ln 2) 2 1 = 1 / 3.
Proof.
  unfold delta_i. change (seq 0 1) with [0%nat]. cbn [fold_left]. change (Z.to_nat 2) with 2%nat. rewrite C_n_0.
  change (INR 0) with 0. change (INR 1) with 1.
  replace (ln 2 * (2 - 0)) with (ln 2 + ln 2) by lra. replace (ln 2 * (2 - 2 * 1 + 0)) with 0 by lra.
  rewrite exp_plus, exp_0, exp_ln by lra. cbn [pow]. lra.
Qed.
Lemma advanced_example :
  privacy_parameters (ln 2) 0 = Ok (ln 2, 0) /\
  advanced_composition (ln 2, 0) 2 (1/2) = Some (ln 2 * (2 - 2 * 1)) /\
  advanced_composition (ln 2, 0) 2 (1/10) = Some (ln 2 * (2 - 2 * 0)) /\
  advanced_composition (ln 2, 1/2) 2 (1/10) = None /\
  exists E, interaction (repeat (private (ln 2) 0) (Z.to_nat 2)) E.
Proof.
  assert (L : 0 < ln 2) by (rewrite <- ln_1; apply ln_increasing; lra).
  split; [apply params_fwd; lra|]. unfold advanced_composition. change (2 <? 0)%Z with false. change (Z.to_nat (2 / 2)) with 1%nat.
  cbn [advanced_loop]. rewrite delta_i_1, delta_i_0. change (Z.to_nat 2) with 2%nat. change (INR 1) with 1. change (INR 0) with 0. cbn [pow].
  split; [rewrite Rleb_true by lra; reflexivity|].
  split; [rewrite Rleb_false by lra; rewrite Rleb_true by lra; reflexivity|].
  split; [rewrite Rleb_false by lra; rewrite Rleb_false by lra; reflexivity|].
  exists (repeated (leaky (ln 2) 0) 2). apply (runs_interaction (private (ln 2) 0)), leaky_private; lra.
Qed.

Lemma smallest_epsilon_example :
  privacy_parameters 1 (1/10) = Ok (1, 1/10) /\
  (exists fuel x, smallest_epsilon fuel (1, 1/10) 4 (1/100) = Ok (Some x)) /\
  (forall fuel, smallest_epsilon fuel (1, 1/10) 4 (1/10) = Ok None).
Proof.
  assert (P : privacy_parameters 1 (1/10) = Ok (1, 1/10)) by (apply params_fwd; lra).
  split; [exact P|]. split.
  - destruct (smallest_epsilon_returns 1 (1/10) (1, 1/10) 4 (1/100) P ltac:(lia) ltac:(lra)) as [N HN].
    exists (S N). destruct (HN (S N) ltac:(lia)) as [[x|] Hr]; [exists x; exact Hr|].
    exfalso. destruct (smallest_epsilon_none (S N) 1 (1/10) (1, 1/10) 4 (1/100) P ltac:(lia) ltac:(lra) Hr) as [H _].
    change (Z.to_nat 4) with 4%nat in H. cbn [pow] in H. lra.
  - intros fuel. unfold smallest_epsilon. rewrite pow_int_nat by lia. cbn [bind]. change (Z.to_nat 4) with 4%nat. cbn [pow].
    rewrite Rltb_true by lra. reflexivity.
Qed.

(** ** get_smallest_parameter *)
Lemma smallest_parameter_sound fast_len tail fuel eps delta n ctor (mech : R -> exper -> Prop) l up g t disc x :
  (forall k, (k <= fast_len k)%nat) -> 0 <= tail -> search_ok l up g t disc ->
  (forall x D, in_range l up x -> ctor (Fin x) = Ok D -> sound_pld D /\ (forall E, mech x E -> pld_bounds D E)) ->
  smallest_parameter fast_len tail fuel (eps, delta) n ctor (params_of l up g t disc) = Ok (Some x) ->
  exists x', x = Fin x' /\ in_range l up x' /\ (exists D, ctor (Fin x') = Ok D) /\
    (forall E, interaction (repeat (mech x') (Z.to_nat n)) E -> dp_both E eps delta) /\
    (non_increasing (delta_for_parameter fast_len tail eps n ctor) -> forall y D Dn, in_range l up y -> ctor (Fin y) = Ok D ->
       pld_self_compose fast_len D n tail = Ok Dn -> pld_delta Dn (Fin eps) <= delta -> x' <= y + tol_of t disc).
Proof.
  intros Hf Ht HO HC H. unfold smallest_parameter in H. cbn [fst snd] in H.
  destruct (inverse_decreasing _ _ _ _ _ _ _ _ _ HO H) as [_ S].
  destruct (S x eq_refl) as (x' & -> & R & (v & Hv & M) & _ & B & _).
  unfold delta_for_parameter in Hv. apply bind_Ok in Hv. destruct Hv as (D & HD & Hv).
  apply bind_Ok in Hv. destruct Hv as (Dn & HDn & Hv). injection Hv as <-.
  exists x'. split; [reflexivity|]. split; [assumption|]. split; [exists D; assumption|]. split.
  - intros E HI. destruct (HC x' D R HD) as (SD & BD).
    destruct (self_adaptive fast_len D n tail Dn E Hf SD Ht HDn) as [A _].
    { eapply interaction_le; [exact HI | apply repeat_le, BD]. }
    specialize (A eps). cbn in M. destruct (Rltb_spec delta (pld_delta Dn (Fin eps))) as [|N]; [discriminate|].
    destruct A as [A1 A2]. split; intros S0; [specialize (A1 S0) | specialize (A2 S0)]; lra.
  - intros NI y D' Dn' Ry HD' HDn' L. apply (B NI y Ry). exists (Fin (pld_delta Dn' (Fin eps))). split.
    + unfold delta_for_parameter. rewrite HD'. cbn [bind]. rewrite HDn'. reflexivity.
    + cbn. apply Rltb_false, L.
Qed.
