(** Self composition bounds adaptive interactions; object level restatements. *)
From Coq Require Import Sorting.Sorted.
From Verif Require Import Base XReal Exn PyDict ModelCommon ModelPmf ModelPld SpecDP SpecPmf SpecPld
  ProofDP ProofDict ProofPmf ProofCompose ProofCompose2 ProofQuery ProofPld ProofSelf.

Definition unit_of (p : pmf) : pmf :=
  mkPmf (discretization p) 0 (pessimistic_estimate p)
    (match pmf_body p with Sparse _ => Sparse [(0%Z, 1)] | Dense _ _ => Dense 0 [1] end).

Lemma unit_power p : wf p -> power_ok p 0 (unit_of p).
Proof.
  intros W. constructor; try reflexivity.
  - destruct W as (Hd & _). split; [exact Hd|]. split; [simpl; lra|]. unfold mass, unit_of; cbn [pmf_body].
    destruct (pmf_body p); split; auto.
    + exact one_mass.
    + repeat constructor. intros [].
    + intros k. destruct (k <? 0)%Z; [lra|]. destruct (Z.to_nat (k - 0)) as [|[|?]]; simpl; lra.
  - simpl. lra.
  - intros g. unfold psum, unit_of; cbn. destruct (pmf_body p); cbn; lra.
Qed.

Lemma unit_class p : same_class (unit_of p) p = true.
Proof. unfold same_class, unit_of. cbn. destruct (pmf_body p); reflexivity. Qed.

Lemma unit_silent p : wf p -> profile_bounds (fun e => pmf_delta (unit_of p) (Fin e)) silent.
Proof.
  intros W eps. apply dp_iff_hockey. rewrite pmf_delta_psum by apply (pw_wf _ _ _ (unit_power p W)).
  unfold ptest. rewrite (pw_sum _ _ _ (unit_power p W)). cbn [pown]. unfold hgain, hockey_stick. cbn.
  rewrite Rmult_0_l, Rminus_0_r. replace (1 - exp eps * 1) with (1 - exp eps) by lra. lra.
Qed.

Lemma class_compose p q r : same_class p q = true -> pmf_compose p q 0 = Ok r -> same_class r q = true.
Proof.
  intros HC H. unfold pmf_compose in H. destruct (validate_composable p q); [|discriminate].
  cbn [bind] in H. unfold same_class in *. destruct (pmf_body p), (pmf_body q); try discriminate;
    rewrite truncate_zero in H; cbn [bind] in H; injection H as <-; reflexivity.
Qed.

Lemma power_next p n r : wf p -> infinity_mass p <= 1 -> power_ok p n r -> same_class r p = true ->
  exists r', compose_ok r p 0 r' /\ power_ok p (S n) r' /\ same_class r' p = true.
Proof.
  intros W I HR HC.
  destruct (pmf_compose_total r p 0) as [r' E]; auto; try lra.
  - apply (pw_wf _ _ _ HR).
  - apply (pw_disc _ _ _ HR).
  - apply (pw_pess _ _ _ HR).
  - exists r'. assert (C : compose_ok r p 0 r') by (apply pmf_compose_ok; auto; apply (pw_wf _ _ _ HR)).
    split; [assumption|]. split; [exact (power_step p n r r' W I HR C) | exact (class_compose _ _ _ HC E)].
Qed.

Lemma interaction_repeat Cs E : interaction Cs E -> forall D n, sound_pld D ->
  Cs = repeat (pld_bounds D) n ->
  valid E /\ exists r a,
    power_ok (pmf_remove D) n r /\ same_class r (pmf_remove D) = true /\
    power_ok (pmf_add D) n a /\ same_class a (pmf_add D) = true /\
    profile_bounds (fun e => pmf_delta r (Fin e)) E /\
    profile_bounds (fun e => pmf_delta a (Fin e)) (swap E).
Proof.
  induction 1 as [|Cs E C E' HI IH HC]; intros D n HS HE.
  - destruct n; [|discriminate]. destruct HS as ((W1 & _) & (W2 & _) & _).
    split; [apply valid_silent|]. exists (unit_of (pmf_remove D)), (unit_of (pmf_add D)).
    repeat split; auto using unit_power, unit_class;
      try apply (unit_power _ W1); try apply (unit_power _ W2).
    + apply unit_silent; assumption.
    + apply unit_silent; assumption.
  - destruct n as [|n]; [destruct Cs; discriminate|].
    change (repeat (pld_bounds D) (S n)) with (pld_bounds D :: repeat (pld_bounds D) n) in HE. rewrite repeat_cons in HE. apply app_inj_tail in HE. destruct HE as [-> ->].
    destruct (IH D n HS eq_refl) as (V & r & a & R1 & R2 & A1 & A2 & B1 & B2).
    pose proof HS as ((W1 & I1 & P1) & (W2 & I2 & P2) & _).
    destruct (power_next _ n r W1 I1 R1 R2) as (r' & C1 & R1' & R2').
    destruct (power_next _ n a W2 I2 A1 A2) as (a' & C2 & A1' & A2').
    split; [apply valid_seq; [assumption | intros x Hx; apply (HC x Hx)]|].
    exists r', a'. split; [assumption|]. split; [assumption|]. split; [assumption|]. split; [assumption|].
    split.
    + apply (compose_adaptive r (pmf_remove D) 0 r' _ _ (pw_wf _ _ _ R1) W1); auto.
      * rewrite (pw_pess _ _ _ R1). assumption.
      * intros x Hx. destruct (HC x Hx) as (Va & Ba & _). auto.
    + rewrite swap_seq.
      apply (compose_adaptive a (pmf_add D) 0 a' _ _ (pw_wf _ _ _ A1) W2); auto.
      * rewrite (pw_pess _ _ _ A1). assumption.
      * apply valid_swap; assumption.
      * intros x Hx. destruct (HC x Hx) as (Va & _ & Ba). split; [apply valid_swap; assumption | assumption].
Qed.

Lemma self_above fast_len p n tail r r' e :
  (forall k, (k <= fast_len k)%nat) -> wf p -> infinity_mass p <= 1 -> pessimistic_estimate p = true ->
  0 <= tail -> pmf_self_compose fast_len p n tail = Ok r -> power_ok p (Z.to_nat n) r' ->
  pmf_delta r' (Fin e) <= pmf_delta r (Fin e).
Proof.
  intros Hf W Ip HP Ht H C. apply self_compose_ok in H; [|assumption..].
  rewrite !pmf_delta_psum by (apply (so_wf _ _ _ _ H) || apply (pw_wf _ _ _ C)).
  rewrite (so_disc _ _ _ _ H), (pw_disc _ _ _ C).
  assert (Hm : mono (hgain (discretization p) e)) by (unfold mono; apply hgain_mono; apply W).
  assert (Hb : forall z, 0 <= hgain (discretization p) e z <= 1)
    by (intros; split; [apply hgain_nonneg | apply hgain_le_1]).
  pose proof (so_up _ _ _ _ H HP _ 1 Hm Hb) as U.
  assert (X : ptest r' (hgain (discretization p) e) 1 =
    pown p (Z.to_nat n) (hgain (discretization p) e) + (1 - (1 - infinity_mass p) ^ Z.to_nat n) * 1).
  { unfold ptest. rewrite (pw_sum _ _ _ C). pose proof (pw_inf _ _ _ C). f_equal. lra. }
  rewrite X. lra.
Qed.

Lemma pld_self_inv fast_len D n tail r : pld_self_compose fast_len D n tail = Ok r ->
  (symmetric D = true -> pmf_add D = pmf_remove D) ->
  pmf_self_compose fast_len (pmf_remove D) n tail = Ok (pmf_remove r) /\
  pmf_self_compose fast_len (pmf_add D) n tail = Ok (pmf_add r) /\
  (symmetric r = true -> pmf_add r = pmf_remove r).
Proof.
  intros H HS. unfold pld_self_compose in H.
  destruct (pmf_self_compose fast_len (pmf_remove D) n tail) as [rem|] eqn:E1; [|discriminate]. cbn [bind] in H.
  destruct (symmetric D) eqn:S.
  - injection H as <-. rewrite (HS eq_refl). cbn. auto.
  - destruct (pmf_self_compose fast_len (pmf_add D) n tail) as [add|] eqn:E2; [|discriminate].
    cbn [bind] in H. injection H as <-. cbn. repeat split; auto. discriminate.
Qed.

Lemma self_adaptive fast_len D n tail r E :
  (forall k, (k <= fast_len k)%nat) -> sound_pld D -> 0 <= tail ->
  pld_self_compose fast_len D n tail = Ok r ->
  interaction (repeat (pld_bounds D) (Z.to_nat n)) E ->
  (forall eps, dp_both E eps (pld_delta r (Fin eps))) /\
  (forall delta e, pld_epsilon r delta = Ok (Fin e) -> dp_both E e delta).
Proof.
  intros Hf HS Ht H HE. pose proof HS as ((W1 & I1 & P1) & (W2 & I2 & P2) & S).
  destruct (pld_self_inv _ _ _ _ _ H S) as (C1 & C2 & SR).
  destruct (interaction_repeat _ E HE D _ HS eq_refl) as (V & r' & a' & R1 & _ & A1 & _ & B1 & B2).
  assert (WD : wide_pld r).
  { pose proof (self_compose_ok _ _ _ _ _ Hf W1 I1 Ht C1) as K1.
    pose proof (self_compose_ok _ _ _ _ _ Hf W2 I2 Ht C2) as K2.
    split; [|split; [|assumption]].
    - split; [apply (so_wf _ _ _ _ K1) | rewrite (so_pess _ _ _ _ K1); assumption].
    - split; [apply (so_wf _ _ _ _ K2) | rewrite (so_pess _ _ _ _ K2); assumption]. }
  assert (PB : pld_bounds r E).
  { split; [assumption|]. split; intros eps T.
    - eapply Rle_trans; [apply (B1 eps T)|]. apply Rplus_le_compat_l.
      apply (self_above _ _ _ _ _ _ eps Hf W1 I1 P1 Ht C1 R1).
    - eapply Rle_trans; [apply (B2 eps T)|]. apply Rplus_le_compat_l.
      apply (self_above _ _ _ _ _ _ eps Hf W2 I2 P2 Ht C2 A1). }
  split; [intros; apply wide_delta_sound | intros delta e He; eapply wide_epsilon_sound; eauto]; auto.
Qed.

(** ** other object level facts *)
Lemma bounds_prob l n tail orders lo up :
  (forall x, In x l -> 0 <= x) -> (0 <= n)%Z -> 0 <= tail ->
  compute_self_convolve_bounds l n tail orders = Ok (lo, up) ->
  (0 <= lo)%Z /\ (up <= (Z.of_nat (length l) - 1) * n)%Z /\
  prob_sum (zrange 0 (length l)) (fun i => nth (Z.to_nat i) l 0) (Z.to_nat n) (fun s => (s <? lo)%Z) <= tail / 2 /\
  prob_sum (zrange 0 (length l)) (fun i => nth (Z.to_nat i) l 0) (Z.to_nat n) (fun s => (up <? s)%Z) <= tail / 2.
Proof.
  intros Hl Hn Ht H. destruct (bounds_ok l n tail orders _ Hl Hn Ht H) as (A & B & C & D).
  cbn [fst snd] in *. split; [assumption|]. split; [assumption|]. rewrite conv_pow_tuples in C, D.
  unfold prob_sum. split.
  - erewrite rsum_ext; [exact C|]. intros t _. cbv beta. unfold bz. destruct (zsum t <? lo)%Z; lra.
  - erewrite rsum_ext; [exact D|]. intros t _. cbv beta. unfold bz. destruct (up <? zsum t)%Z; lra.
Qed.

Lemma pld_vectorized D eps : wf (pmf_remove D) -> wf (pmf_add D) ->
  (forall e, In e eps -> e <> NaN) ->
  pld_delta_vectorized D eps =
  if eps_sorted eps then Ok (map (pld_delta D) eps) else Err ValueError.
Proof.
  intros W1 W2 HN. unfold pld_delta_vectorized. rewrite !vectorized_ok by assumption.
  destruct (eps_sorted eps); [|reflexivity]. cbn [bind]. unfold pld_delta.
  destruct (symmetric D); [reflexivity|]. f_equal. clear.
  induction eps as [|e eps IH]; [reflexivity|]. cbn [map combine fst snd]. f_equal. exact IH.
Qed.

Lemma eps_sorted_fin l : eps_sorted (map Fin l) = true <-> Sorted Rle l.
Proof.
  induction l as [|x [|y l] IH].
  - split; [constructor | reflexivity].
  - split; [repeat constructor | reflexivity].
  - cbn [map eps_sorted diff_nonneg]. rewrite andb_true_iff. split.
    + intros [H1 H2]. constructor; [apply IH; exact H2|]. constructor.
      unfold Rleb in H1. destruct (Rle_dec x y); [assumption | discriminate].
    + intros H. inversion H as [|a b S1 S2]; subst. split; [|apply IH; assumption].
      inversion S2; subst. apply Rleb_true. assumption.
Qed.

Lemma pld_delta_curve D e k1 k2 : wf (pmf_remove D) -> wf (pmf_add D) ->
  (symmetric D = true -> pmf_add D = pmf_remove D) ->
  covers k1 (pmf_remove D) -> covers k2 (pmf_add D) ->
  pld_delta D (Fin e) = Rmax (curve_at (pmf_remove D) k1 e) (curve_at (pmf_add D) k2 e).
Proof.
  intros W1 W2 HS C1 C2. unfold pld_delta.
  rewrite <- (delta_formula (pmf_remove D)), <- (delta_formula (pmf_add D)) by assumption.
  destruct (symmetric D); [|reflexivity]. rewrite HS by reflexivity.
  rewrite Rmax_left; lra.
Qed.

Lemma optimistic_dense : exists p fast_len r r',
  wf p /\ infinity_mass p <= 1 /\ pessimistic_estimate p = false /\ (forall k, (k <= fast_len k)%nat) /\
  pmf_self_compose fast_len p 1 (1/2) = Ok r /\ copies p 1 r' /\
  pmf_delta r' (Fin 1) < pmf_delta r (Fin 1).
Proof.
  set (p := mkPmf 1 0 false (Dense 0 [1])).
  assert (W : wf p).
  { split; [simpl; lra|]. split; [simpl; lra|]. split; [|exact I]. intros k. unfold mass, p; cbn [pmf_body].
    destruct (k <? 0)%Z; [lra|]. destruct (Z.to_nat (k - 0)) as [|[|?]]; simpl; lra. }
  assert (Hf : forall k, (k <= (fun k : nat => k) k)%nat) by (intros; auto).
  destruct (dense_self_total (fun k => k) p 0 [1] 1 (1/2) W eq_refl) as (r & E & Ir);
    [unfold psum; cbn; lra | cbn; lra | lia | lra |].
  exists p, (fun k => k), r, p. split; [assumption|]. split; [simpl; lra|]. split; [reflexivity|].
  split; [assumption|]. split; [exact E|]. split; [constructor|].
  assert (Ip : infinity_mass p <= 1) by (simpl; lra).
  assert (Ht : 0 <= 1/2) by lra.
  pose proof (self_compose_ok (fun k => k) p 1 (1/2) r Hf W Ip Ht E) as K.
  rewrite (pmf_delta_psum r) by apply (so_wf _ _ _ _ K).
  rewrite (pmf_delta_psum p) by assumption. unfold ptest.
  assert (0 <= psum r (hgain (discretization r) 1)).
  { apply psum_nonneg; [apply (so_wf _ _ _ _ K) | intros; apply hgain_nonneg]. }
  assert (X : psum p (hgain (discretization p) 1) = 0).
  { unfold psum, lsum; cbn -[exp hgain]. unfold hgain. rewrite pos_0; [lra|].
    pose proof (exp_ineq1 1). replace (1 - 0 * 1) with 1 by lra. lra. }
  rewrite X, Ir. change (infinity_mass p) with 0. change (Z.to_nat 1) with 1%nat. lra.
Qed.
