(** Composition of upper bounds that hold up to an error: the errors add up. *)
From Coq Require Import Sorting.Sorted.
From Verif Require Import Base XReal Exn PyDict ModelCommon ModelPmf ModelPld SpecDP SpecPmf SpecPld SpecAccErr SpecAccPld
  ProofDP ProofDict ProofPmf ProofCompose ProofCompose2 ProofQuery ProofPld ProofSelf ProofSelfDP ProofAccSound.

Lemma curve_err inf err l a b : curve (inf + err) l a b = curve inf l a b + err * a.
Proof. unfold curve. ring. Qed.
Lemma bounds_iff_err p err E : wf p -> 0 <= err -> valid E ->
  (profile_bounds (fun e => pmf_delta p (Fin e) + err) E <-> hbounds (infinity_mass p + err) (rms p) E).
Proof.
  intros W He V. pose proof W as (_ & Wi & _). split.
  - intros H. apply hbounds_of_eps; [assumption | lra | apply okl_rms; assumption |].
    intros eps. rewrite curve_err, <- pmf_delta_curve by assumption. rewrite Rmult_1_r. apply dp_iff_hockey, H.
  - intros H eps. apply dp_iff_hockey. pose proof (eps_of_hbounds _ _ _ H eps) as K. rewrite curve_err, <- pmf_delta_curve in K by assumption. lra.
Qed.
Lemma hbounds_trivial inf l E : valid E -> okl l -> 1 <= inf -> hbounds inf l E.
Proof.
  intros V Hl Hi a b Ha Hb. apply Rle_trans with a.
  - unfold hs. apply Rle_trans with (rsum (fun o => a * prP E o) (outs E)).
    + apply rsum_le. intros o Ho. destruct V as (VP & _). destruct (VP o Ho). apply pos_le_bound; nra.
    + rewrite rsum_scal. destruct V as (_ & V1 & _). rewrite V1. lra.
  - unfold curve. assert (0 <= rsum (fun rm => snd rm * pos (a - b * fst rm)) l); [|nra]. apply rsum_nonneg. intros rm I. apply Rmult_le_pos; [apply Hl, I | apply pos_nonneg].
Qed.
Lemma okl_prodl l1 l2 : okl l1 -> okl l2 -> okl (prodl l1 l2).
Proof.
  intros H1 H2 rm I. apply in_flat_map in I as (x & Hx & I). apply in_map_iff in I as (y & <- & Hy). cbn. destruct (H1 x Hx), (H2 y Hy). split; [apply Rmult_lt_0_compat; assumption | apply Rmult_le_pos; assumption].
Qed.

Lemma compose_adaptive_err p q tail r e1 e2 E1 E2 :
  wf p -> wf q -> pessimistic_estimate p = true -> infinity_mass q <= 1 ->
  0 <= e1 -> 0 <= e2 -> compose_ok p q tail r ->
  valid E1 -> profile_bounds (fun e => pmf_delta p (Fin e) + e1) E1 ->
  (forall a, In a (outs E1) -> valid (E2 a) /\ profile_bounds (fun e => pmf_delta q (Fin e) + e2) (E2 a)) ->
  profile_bounds (fun e => pmf_delta r (Fin e) + (e1 + e2)) (seq_exper E1 E2).
Proof.
  intros Wp Wq HP HO He1 He2 C V1 B1 H2.
  assert (Wr : wf r) by exact (compose_wf p q tail r Wp Wq (or_intror HO) C).
  assert (V : valid (seq_exper E1 E2)) by (apply valid_seq; [assumption | intros; apply H2; assumption]).
  pose proof Wp as (_ & Ip & _). pose proof Wq as (_ & Iq & _).
  apply bounds_iff_err; [assumption | lra | assumption |].
  apply bounds_iff_err in B1; [|assumption..].
  assert (CB : hbounds (infinity_mass p + infinity_mass q - infinity_mass p * infinity_mass q + (e1 + e2)) (prodl (rms p) (rms q)) (seq_exper E1 E2)).
  { destruct (Rle_dec (infinity_mass q + e2) 1) as [L|L].
    - assert (K : hbounds ((infinity_mass p + e1) + (infinity_mass q + e2) - (infinity_mass p + e1) * (infinity_mass q + e2)) (prodl (rms p) (rms q)) (seq_exper E1 E2)).
      { apply compose_bound; auto using okl_rms, desc_rms; try lra. intros o Ho. destruct (H2 o Ho) as [V2 B2]. split; [assumption|]. apply bounds_iff_err in B2; assumption. }
      intros a b Ha Hb. eapply Rle_trans; [apply K; assumption|]. unfold curve. apply Rplus_le_compat_r, Rmult_le_compat_r; [exact Ha|].
      assert (0 <= infinity_mass p * e2) by (apply Rmult_le_pos; assumption). assert (0 <= e1 * infinity_mass q) by (apply Rmult_le_pos; assumption). assert (0 <= e1 * e2) by (apply Rmult_le_pos; assumption). lra.
    - apply hbounds_trivial; [exact V | apply okl_prodl; apply okl_rms; assumption|].
      assert (0 <= infinity_mass p * (1 - infinity_mass q)) by (apply Rmult_le_pos; lra). lra. }
  intros a b Ha Hb. eapply Rle_trans; [apply CB; assumption|].
  rewrite !curve_err. apply Rplus_le_compat_r. rewrite curve_ptest by assumption. unfold curve.
  rewrite conv2_prod by (auto; apply (co_disc _ _ _ _ C)).
  destruct (co_pes _ _ _ _ C HP) as [_ T].
  rewrite (co_rdisc _ _ _ _ C).
  destruct (T (hg (discretization p) a b) a) as [T1 _].
  - apply hg_mono; [apply Wp | assumption].
  - intros; apply hg_bound; assumption.
  - unfold combine_inf in T1. lra.
Qed.

Lemma within_bounds D E : pld_bounds D E -> pld_within 0 D E.
Proof. intros (V & B1 & B2). split; [exact V|]. split; intros eps T; rewrite Rplus_0_r; [apply B1 | apply B2]. Qed.
Lemma within_le e1 e2 D E : e1 <= e2 -> pld_within e1 D E -> pld_within e2 D E.
Proof. intros L (V & B1 & B2). split; [exact V|]. split; intros eps T; [pose proof (B1 eps T) as K | pose proof (B2 eps T) as K]; cbn beta in *; lra. Qed.

Lemma pld_compose_step_err D D' tail r e1 e2 E1 E2 : wide_pld D -> sound_pld D' -> 0 <= e1 -> 0 <= e2 ->
  pld_compose D D' tail = Ok r -> pld_within e1 D E1 ->
  (forall a, In a (outs E1) -> pld_within e2 D' (E2 a)) ->
  pld_within (e1 + e2) r (seq_exper E1 E2).
Proof.
  intros ((W1 & P1) & (W2 & P2) & S) ((W1' & I1' & P1') & (W2' & I2' & P2') & S') He1 He2 H (V & B1 & B2) HB.
  destruct (pld_compose_inv _ _ _ _ H S S') as (C1 & C2 & SR).
  apply compose_pmfs_ok in C1; [|assumption..]. apply compose_pmfs_ok in C2; [|assumption..].
  split; [apply valid_seq; [assumption | intros a Ha; apply (HB a Ha)]|]. split.
  - apply (compose_adaptive_err _ _ _ _ _ _ _ _ W1 W1' P1 I1' He1 He2 C1 V B1).
    intros a Ha. destruct (HB a Ha) as (Va & Ba & _). auto.
  - rewrite swap_seq.
    apply (compose_adaptive_err _ _ _ _ _ _ _ _ W2 W2' P2 I2' He1 He2 C2 (valid_swap _ V) B2).
    intros a Ha. destruct (HB a Ha) as (Va & _ & Ba). split; [apply valid_swap; assumption | assumption].
Qed.

Lemma interaction_repeat_err Cs E : interaction Cs E -> forall D err n, sound_pld D -> 0 <= err ->
  Cs = repeat (pld_within err D) n ->
  valid E /\ exists r a,
    power_ok (pmf_remove D) n r /\ same_class r (pmf_remove D) = true /\
    power_ok (pmf_add D) n a /\ same_class a (pmf_add D) = true /\
    profile_bounds (fun e => pmf_delta r (Fin e) + INR n * err) E /\
    profile_bounds (fun e => pmf_delta a (Fin e) + INR n * err) (swap E).
Proof.
  induction 1 as [|Cs E C E' HI IH HC]; intros D err n HS He HE.
  - destruct n; [|discriminate]. destruct HS as ((W1 & _) & (W2 & _) & _).
    split; [apply valid_silent|]. exists (unit_of (pmf_remove D)), (unit_of (pmf_add D)).
    split; [apply unit_power, W1|]. split; [apply unit_class|]. split; [apply unit_power, W2|]. split; [apply unit_class|].
    split; intros eps T; cbn [INR]; rewrite Rmult_0_l, Rplus_0_r; apply unit_silent; assumption.
  - destruct n as [|n]; [destruct Cs; discriminate|].
    change (repeat (pld_within err D) (S n)) with (pld_within err D :: repeat (pld_within err D) n) in HE. rewrite repeat_cons in HE. apply app_inj_tail in HE. destruct HE as [-> ->].
    destruct (IH D err n HS He eq_refl) as (V & r & a & R1 & R2 & A1 & A2 & B1 & B2).
    pose proof HS as ((W1 & I1 & P1) & (W2 & I2 & P2) & _).
    destruct (power_next _ n r W1 I1 R1 R2) as (r' & C1 & R1' & R2').
    destruct (power_next _ n a W2 I2 A1 A2) as (a' & C2 & A1' & A2').
    assert (Hn : 0 <= INR n * err) by (apply Rmult_le_pos; [apply pos_INR | exact He]).
    split; [apply valid_seq; [assumption | intros x Hx; apply (HC x Hx)]|].
    exists r', a'. split; [assumption|]. split; [assumption|]. split; [assumption|]. split; [assumption|].
    rewrite S_INR, Rmult_plus_distr_r, Rmult_1_l. split.
    + apply (compose_adaptive_err r (pmf_remove D) 0 r' _ _ _ _ (pw_wf _ _ _ R1) W1); auto.
      * rewrite (pw_pess _ _ _ R1). assumption.
      * intros x Hx. destruct (HC x Hx) as (Va & Ba & _). auto.
    + rewrite swap_seq.
      apply (compose_adaptive_err a (pmf_add D) 0 a' _ _ _ _ (pw_wf _ _ _ A1) W2); auto.
      * rewrite (pw_pess _ _ _ A1). assumption.
      * apply valid_swap; assumption.
      * intros x Hx. destruct (HC x Hx) as (Va & _ & Ba). split; [apply valid_swap; assumption | assumption].
Qed.

(** An infinity mass that stays below 1. *)
Lemma self_sound fast_len D n tail r : (forall k, (k <= fast_len k)%nat) -> sound_pld D -> 0 <= tail ->
  2 * tail <= (1 - infinity_mass (pmf_remove D)) ^ Z.to_nat n -> 2 * tail <= (1 - infinity_mass (pmf_add D)) ^ Z.to_nat n ->
  pld_self_compose fast_len D n tail = Ok r -> sound_pld r.
Proof. intros Hf HS Ht T1 T2 H. apply (self_pld_sound fast_len D n tail r Hf HS Ht T1 T2 H). Qed.
Lemma self_pld_err fast_len D n tail err r : (forall k, (k <= fast_len k)%nat) -> sound_pld D -> 0 <= tail -> 0 <= err ->
  pld_self_compose fast_len D n tail = Ok r ->
  forall E, interaction (repeat (pld_within err D) (Z.to_nat n)) E -> pld_within (INR (Z.to_nat n) * err) r E.
Proof.
  intros Hf HS Ht He H E HE. pose proof HS as ((W1 & I1 & P1) & (W2 & I2 & P2) & S).
  destruct (pld_self_inv _ _ _ _ _ H S) as (C1 & C2 & SR).
  destruct (interaction_repeat_err _ E HE D err _ HS He eq_refl) as (V & r' & a' & R1 & _ & A1 & _ & B1 & B2).
  split; [assumption|]. split; intros eps T.
  - eapply Rle_trans; [apply (B1 eps T)|]. apply Rplus_le_compat_l, Rplus_le_compat_r.
    apply (self_above _ _ _ _ _ _ eps Hf W1 I1 P1 Ht C1 R1).
  - eapply Rle_trans; [apply (B2 eps T)|]. apply Rplus_le_compat_l, Rplus_le_compat_r.
    apply (self_above _ _ _ _ _ _ eps Hf W2 I2 P2 Ht C2 A1).
Qed.
Lemma iso_within err D E F : iso E F -> pld_within err D F -> pld_within err D E.
Proof.
  intros I (V & B1 & B2). split; [apply (iso_valid _ _ I V)|]. split; [apply (iso_bounds _ _ _ I B1) | apply (iso_bounds _ _ _ (iso_swap _ _ I) B2)].
Qed.
Lemma no_leak_within err D E E' : (forall a, In a (outs E) -> no_leak (E' a)) -> pld_within err D E -> pld_within err D (seq_exper E E').
Proof.
  intros N (V & B1 & B2). split; [apply valid_seq; [exact V | intros a Ha; apply (N a Ha)]|].
  split; [apply no_leak_step; assumption|]. rewrite swap_seq. apply no_leak_step; [|exact B2]. intros a Ha. apply no_leak_swap, N, Ha.
Qed.
Lemma within_delta_sound err D E eps : wide_pld D -> pld_within err D E -> dp_both E eps (pld_delta D (Fin eps) + err).
Proof.
  intros (_ & _ & HS) (_ & B1 & B2). specialize (B1 eps). specialize (B2 eps).
  unfold pld_delta. destruct (symmetric D) eqn:S.
  - rewrite (HS eq_refl) in B2. split; assumption.
  - split; intros ev.
    + eapply Rle_trans; [apply (B1 ev)|]. apply Rplus_le_compat_l, Rplus_le_compat_r, Rmax_l.
    + eapply Rle_trans; [apply (B2 ev)|]. apply Rplus_le_compat_l, Rplus_le_compat_r, Rmax_r.
Qed.
Lemma within_epsilon_sound err D E delta e : wide_pld D -> pld_within err D E -> pld_epsilon D delta = Ok (Fin e) -> dp_both E e (delta + err).
Proof.
  intros S B H. pose proof S as ((W1 & _) & (W2 & _) & HS).
  destruct (pld_epsilon_spec D delta W1 W2 HS) as [[E1 _]|(_ & _ & e' & E1 & _ & D1 & _)].
  - congruence.
  - rewrite E1 in H. injection H as ->. destruct (within_delta_sound err D E e S B) as [X Y].
    destruct B as [V _].
    split; eapply dp_mono; try apply X; try apply Y; try lra; auto. apply valid_swap; assumption.
Qed.
