(** Examples and refutations for the constructors. *)
From Coq Require Import Sorting.Sorted.
From Verif Require Import Base XReal Exn PyDict TypesRelation ModelCommon ModelPmf ModelPld ModelMake
  SpecDP SpecPmf SpecPld SpecMake ProofDP ProofDict ProofPmf ProofPldApi ProofMake ProofTwo ProofRR
  ProofParams ProofDots ProofCdf.

(** half of the upper distribution never occurs in the lower one *)
Definition leak_upper : odict Z := [(0%Z, Some (ln (1/2))); (1%Z, Some (ln (1/2))); (7%Z, None)].
Definition leak_lower : odict Z := [(0%Z, Some (ln (1/3))); (2%Z, Some (ln (2/3))); (1%Z, None)].
Lemma leak_example : distribution leak_upper /\ distribution leak_lower /\
  exists D, from_two_pmfs Z.eqb leak_lower leak_upper true (1/10) (Some (-50)) false = Ok D.
Proof.
  split; [|split; [|apply two_total; lra]];
    (split; [repeat constructor; cbn; intuition discriminate|]; cbn [leak_upper leak_lower rsum snd lexp];
     rewrite !exp_ln by lra; lra).
Qed.

Lemma bit_dp : valid bit /\ dp_both bit (ln 2) 0.
Proof.
  split; [split; [|cbn; lra]; intros [|] _; cbn; lra|].
  split; apply dp_iff_hockey; unfold hockey_stick; cbn [outs bit prP prQ rsum swap];
    rewrite exp_ln by lra; rewrite !pos_0; lra.
Qed.

Lemma xx_ln2 z : (0 <= z)%Z -> exp (IZR z * ln 2) = 2 ^ Z.to_nat z.
Proof.
  intros H. rewrite <- (exp_ln 2) at 2 by lra. rewrite <- exp_nat_mul. f_equal. f_equal.
  rewrite INR_IZR_INZ. f_equal. lia.
Qed.

(** values that no privacy curve has: the dots are not hit *)
Lemma dots_not_convex : exists disc eps deltas p z d, 0 < disc /\
  connect_dots disc eps deltas = Ok p /\ In (z, d) (combine eps deltas) /\
  d < pmf_delta p (Fin (IZR z * disc)) /\ ~ proper p.
Proof.
  assert (Hd : 0 < ln 2) by (rewrite <- ln_1; apply ln_increasing; lra).
  set (p0 := connect_dots (ln 2) [0%Z; 1%Z; 2%Z] [1; 1; 0]).
  assert (H : exists p, p0 = Ok p).
  { unfold p0, connect_dots. cbn [length Nat.eqb negb orb zdiff map existsb rdiff].
    rewrite !Rleb_false by (cbn; lra). rewrite !Rltb_false by lra. cbn [orb]. apply create_pmf_total. }
  destruct H as [p H]. exists (ln 2), [0%Z; 1%Z; 2%Z], [1; 1; 0], p, 0%Z, 1.
  destruct (dots_ok (ln 2) Hd _ _ _ H) as (_ & _ & _ & _ & _ & W & _ & _ & _ & ED & ET).
  assert (X0 : xx (ln 2) 0 = 1) by (unfold xx; rewrite xx_ln2 by lia; change (Z.to_nat 0) with 0%nat; cbn [pow]; lra).
  assert (X1 : xx (ln 2) 1 = 2) by (unfold xx; rewrite xx_ln2 by lia; change (Z.to_nat 1) with 1%nat; cbn [pow]; lra).
  assert (X2 : xx (ln 2) 2 = 4) by (unfold xx; rewrite xx_ln2 by lia; change (Z.to_nat 2) with 2%nat; cbn [pow]; lra).
  assert (E1 : forall t, t <= 1 -> T (ln 2) (Rmax 0) (1 - hd 0 [1; 1; 0]) (combine [0%Z; 1%Z; 2%Z] [1; 1; 0]) t =
    2 * (1 - t / 4)).
  { intros t Ht. cbn [combine hd]. rewrite !T_cons. cbn [T].
    rewrite !gap_right, !gap_left, X0, X1, X2 by lia.
    replace (1 - 1 + (1 - 1) / ((2 - 1) / 1)) with 0 by field.
    replace ((1 - 1) / (- (2 - 1) / 2) + (0 - 1) / ((4 - 2) / 2)) with (-1) by field.
    replace ((0 - 1) / (- (4 - 2) / 4) + 0) with 2 by field.
    rewrite (Rmax_left 0 0), (Rmax_left 0 (-1)), (Rmax_right 0 2) by lra.
    rewrite (pos_eq (1 - t / 4)) by lra. lra. }
  split; [assumption|]. split; [exact H|]. split; [left; reflexivity|]. split.
  - rewrite ED, xx_ln2, E1 by (try lia; cbn; lra). cbn. lra.
  - intros PR. apply proper_total in PR. destruct PR as [_ PR]. rewrite ET, E1 in PR by lra. lra.
Qed.

Lemma dots_example : exists p,
  connect_dots (1/10) [(-1)%Z; 0%Z; 7%Z] (map (fun z => hs bit 1 (exp (IZR z * (1/10)))) [(-1)%Z; 0%Z; 7%Z]) = Ok p.
Proof.
  apply dots_total; [lra | apply exper_curve, bit_dp | discriminate |].
  repeat constructor; lia.
Qed.

Lemma cdf_example : exists fuel D,
  create_from_cdf fuel (loss_cdf [(1, 1/2); (-1/3, 1/3); (5, 1/7)]) true (1/10) (1/10) = Ok D.
Proof. apply (cdf_total _ (1/42)); cbn; lra. Qed.

(** statements in terms of the hockey stick *)
Lemma dots_dominates_exper disc eps deltas p E : 0 < disc ->
  connect_dots disc eps deltas = Ok p -> valid E ->
  (forall z d, In (z, d) (combine eps deltas) -> dp E (IZR z * disc) d) ->
  forall e, dp E e (pmf_delta p (Fin e)).
Proof.
  intros Hd H V HH e. apply dp_iff_hockey. rewrite hockey_hs.
  apply (dots_dominates disc Hd eps deltas p _ H (exper_curve E V)).
  intros z d Hin. rewrite <- hockey_hs. apply dp_iff_hockey, HH, Hin.
Qed.

Lemma rr_example : rr_pair REPLACE_ONE (1/2) 5 (rr_exper (1/2) 5 3 1) /\
  rr_pair REPLACE_SPECIAL (1/2) 5 (rr_special (1/2) 5 4) /\
  (exists D, from_randomized_response (1/2) 5 true (1/10) REPLACE_ONE = Ok D) /\
  (exists D, from_randomized_response (1/2) 5 true (1/10) REPLACE_SPECIAL = Ok D).
Proof.
  assert (B : forall x, (0 <= x < 5)%Z -> In x (buckets 5)).
  { intros x Hx. unfold buckets. apply in_map_iff. exists (Z.to_nat x). split; [lia|].
    apply in_seq. change (Z.to_nat 5) with 5%nat. lia. }
  split; [|split; [|split]].
  - exists 3%Z, 1%Z. split; [apply B; lia|]. split; [apply B; lia|]. split; [discriminate | reflexivity].
  - exists 4%Z. split; [apply B; lia | reflexivity].
  - generalize (rr_total (1/2) 5 true (1/10) REPLACE_ONE ltac:(lra)).
    rewrite !Rltb_true by lra. exact (fun H => H).
  - generalize (rr_total (1/2) 5 true (1/10) REPLACE_SPECIAL ltac:(lra)).
    rewrite !Rltb_true by lra. exact (fun H => H).
Qed.
