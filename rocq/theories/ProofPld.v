(** Privacy profiles, composition and truncation at the level of pmfs and PLDs. *)
From Verif Require Import Base XReal Exn PyDict ModelCommon ModelPmf ModelPld SpecDP SpecPmf SpecPld
  ProofDP ProofDict ProofPmf ProofCompose ProofCompose2 ProofQuery.
From Coq Require Import Permutation Sorted.

(** ** C12 *)
Lemma delta_formula p ks e : wf p -> covers ks p -> pmf_delta p (Fin e) = curve_at p ks e.
Proof.
  intros W C. rewrite pmf_delta_psum by assumption. unfold ptest, curve_at.
  rewrite (psum_covers p ks) by assumption. unfold hgain, pos. lra.
Qed.

Lemma delta_monotone p e1 e2 : wf p -> e1 <= e2 -> pmf_delta p (Fin e2) <= pmf_delta p (Fin e1).
Proof.
  intros W H. rewrite !pmf_delta_F. apply F_mono; [|assumption].
  apply (loss_floats_desc p W).
Qed.

Lemma delta_bounds p ks e : wf p -> covers ks p ->
  infinity_mass p <= pmf_delta p (Fin e) <= infinity_mass p + rsum (mass p) ks.
Proof.
  intros W C. rewrite pmf_delta_psum by assumption. unfold ptest. split.
  - assert (0 <= psum p (hgain (discretization p) e)) by (apply psum_nonneg; [assumption | intros; apply hgain_nonneg]).
    lra.
  - assert (psum p (hgain (discretization p) e) <= psum p (fun _ => 1))
      by (apply psum_le; [assumption | intros; apply hgain_le_1]).
    rewrite (psum_covers p ks (fun _ => 1)) in H by assumption.
    replace (rsum (fun k => mass p k * 1) ks) with (rsum (mass p) ks) in H; [lra|].
    apply rsum_ext. intros; lra.
Qed.

Lemma delta_above p e : wf p -> (forall k, mass p k <> 0 -> IZR k * discretization p <= e) ->
  pmf_delta p (Fin e) = infinity_mass p.
Proof.
  intros W H. rewrite pmf_delta_psum by assumption. unfold ptest.
  rewrite (psum_restrict p _ (fun _ => 0 * 0)); [rewrite psum_scal; lra | assumption |].
  intros k Hk. unfold hgain. rewrite pos_0; [lra|].
  assert (exp 0 <= exp (e - IZR k * discretization p)) by (apply exp_le; specialize (H k Hk); lra).
  rewrite exp_0 in *. lra.
Qed.

Lemma delta_convex p t e1 e2 e : wf p -> 0 <= t <= 1 ->
  exp e = t * exp e1 + (1 - t) * exp e2 ->
  pmf_delta p (Fin e) <= t * pmf_delta p (Fin e1) + (1 - t) * pmf_delta p (Fin e2).
Proof.
  intros W Ht He. rewrite !pmf_delta_psum by assumption. unfold ptest.
  assert (psum p (hgain (discretization p) e) <=
     psum p (fun k => t * hgain (discretization p) e1 k + (1 - t) * hgain (discretization p) e2 k)).
  { apply psum_le; [assumption|]. intros k. unfold hgain.
    rewrite <- !pos_scal by lra. eapply Rle_trans; [|apply pos_plus]. apply pos_le.
    rewrite !exp_minus. rewrite He. pose proof (exp_pos (IZR k * discretization p)).
    right. field. lra. }
  rewrite psum_plus, !psum_scal in H. lra.
Qed.

(** ** soundness of the PLD queries *)
Lemma pld_delta_sound D E eps : sound_pld D -> pld_bounds D E ->
  dp_both E eps (pld_delta D (Fin eps)).
Proof.
  intros (_ & _ & HS) (_ & B1 & B2). specialize (B1 eps). specialize (B2 eps).
  unfold pld_delta. destruct (symmetric D) eqn:S.
  - rewrite (HS eq_refl) in B2. split; assumption.
  - split; intros ev.
    + eapply Rle_trans; [apply (B1 ev)|]. apply Rplus_le_compat_l, Rmax_l.
    + eapply Rle_trans; [apply (B2 ev)|]. apply Rplus_le_compat_l, Rmax_r.
Qed.

Lemma dp_mono E eps1 eps2 d1 d2 : valid E -> eps1 <= eps2 -> d1 <= d2 -> dp E eps1 d1 -> dp E eps2 d2.
Proof.
  intros [HN _] He Hd H S. eapply Rle_trans; [apply H|].
  assert (0 <= ProbQ E S).
  { apply rsum_nonneg. intros a Ha. apply filter_In in Ha. apply HN, Ha. }
  pose proof (exp_le _ _ He). nra.
Qed.

Lemma pld_epsilon_spec D delta : wf (pmf_remove D) -> wf (pmf_add D) ->
  (symmetric D = true -> pmf_add D = pmf_remove D) ->
  (pld_epsilon D delta = Ok PInf /\
     (delta < infinity_mass (pmf_remove D) \/ delta < infinity_mass (pmf_add D))) \/
  (infinity_mass (pmf_remove D) <= delta /\ infinity_mass (pmf_add D) <= delta /\
   exists e, pld_epsilon D delta = Ok (Fin e) /\ 0 <= e /\ pld_delta D (Fin e) <= delta /\
   ((infinity_mass (pmf_remove D) < delta \/ forall kv, In kv (losses_probs (pmf_remove D)) -> 0 < snd kv) ->
    (infinity_mass (pmf_add D) < delta \/ forall kv, In kv (losses_probs (pmf_add D)) -> 0 < snd kv) ->
    forall e', 0 <= e' < e -> delta < pld_delta D (Fin e'))).
Proof.
  intros W1 W2 HS. unfold pld_epsilon, pld_delta.
  destruct (pmf_epsilon_ok _ delta W1) as [[E1 H1]|(H1 & e1 & E1 & P1 & D1 & M1)]; rewrite E1; cbn [bind].
  - left. destruct (symmetric D); [auto|].
    destruct (pmf_epsilon_ok _ delta W2) as [[E2 H2]|(H2 & e2 & E2 & P2 & D2 & M2)]; rewrite E2;
      cbn [bind]; auto.
  - destruct (symmetric D) eqn:S.
    + rewrite (HS eq_refl) in *. right. split; [assumption|]. split; [assumption|].
      exists e1. auto.
    + destruct (pmf_epsilon_ok _ delta W2) as [[E2 H2]|(H2 & e2 & E2 & P2 & D2 & M2)]; rewrite E2;
      cbn [bind].
      * left. split; [reflexivity | auto].
      * right. split; [assumption|]. split; [assumption|].
        unfold xmax. cbn [xltb].
        destruct (Rltb_spec e1 e2) as [Hlt|Hge].
        -- exists e2. split; [reflexivity|]. split; [assumption|]. split.
           ++ apply Rmax_lub; [|assumption].
              eapply Rle_trans; [|exact D1]. apply delta_monotone; [assumption | lra].
           ++ intros _ HC e' He'. eapply Rlt_le_trans; [|apply Rmax_r]. apply M2; auto.
        -- exists e1. split; [reflexivity|]. split; [assumption|]. split.
           ++ apply Rmax_lub; [assumption|].
              eapply Rle_trans; [|exact D2]. apply delta_monotone; [assumption | lra].
           ++ intros HC _ e' He'. eapply Rlt_le_trans; [|apply Rmax_l]. apply M1; auto.
Qed.

Lemma pld_epsilon_sound D E delta e : sound_pld D -> pld_bounds D E ->
  pld_epsilon D delta = Ok (Fin e) -> dp_both E e delta.
Proof.
  intros S B H. pose proof S as ((W1 & _) & (W2 & _) & HS).
  destruct (pld_epsilon_spec D delta W1 W2 HS) as [[E1 _]|(_ & _ & e' & E1 & _ & D1 & _)].
  - congruence.
  - rewrite E1 in H. injection H as ->. destruct (pld_delta_sound D E e S B) as [X Y].
    destruct B as [V _].
    split; eapply dp_mono; try apply X; try apply Y; try lra; auto. apply valid_swap; assumption.
Qed.

(** ** C16 *)
Definition wide_pld (D : pld) : Prop :=   (* the accumulated PLD: infinity mass unrestricted *)
  (wf (pmf_remove D) /\ pessimistic_estimate (pmf_remove D) = true) /\
  (wf (pmf_add D) /\ pessimistic_estimate (pmf_add D) = true) /\
  (symmetric D = true -> pmf_add D = pmf_remove D).

Lemma sound_wide D : sound_pld D -> wide_pld D.
Proof. unfold sound_pld, sound_pmf, wide_pld. intuition. Qed.

Lemma new_pld_sym r a : symmetric (new_pld r a) = true -> pmf_add (new_pld r a) = pmf_remove (new_pld r a).
Proof. destruct a; simpl; [discriminate | reflexivity]. Qed.

Lemma pld_compose_inv D D' tail r : pld_compose D D' tail = Ok r ->
  (symmetric D = true -> pmf_add D = pmf_remove D) ->
  (symmetric D' = true -> pmf_add D' = pmf_remove D') ->
  compose_pmfs (pmf_remove D) (pmf_remove D') tail = Ok (pmf_remove r) /\
  compose_pmfs (pmf_add D) (pmf_add D') tail = Ok (pmf_add r) /\
  (symmetric r = true -> pmf_add r = pmf_remove r).
Proof.
  intros H HS HS'. unfold pld_compose in H.
  destruct (compose_pmfs (pmf_remove D) (pmf_remove D') tail) as [rem|] eqn:E1; [|discriminate].
  cbn [bind] in H. destruct (symmetric D) eqn:S1, (symmetric D') eqn:S2; cbn [andb] in H;
    try (destruct (compose_pmfs (pmf_add D) (pmf_add D') tail) as [add|] eqn:E2;
         [|discriminate]; cbn [bind] in H); injection H as <-; cbn [pmf_remove pmf_add new_pld symmetric];
    (split; [reflexivity|]); (split; [|try discriminate; reflexivity]); try reflexivity.
  rewrite (HS eq_refl), (HS' eq_refl). exact E1.
Qed.

Lemma pld_compose_step D D' tail r E1 E2 : wide_pld D -> sound_pld D' ->
  pld_compose D D' tail = Ok r -> pld_bounds D E1 ->
  (forall a, In a (outs E1) -> pld_bounds D' (E2 a)) ->
  wide_pld r /\ pld_bounds r (seq_exper E1 E2).
Proof.
  intros ((W1 & P1) & (W2 & P2) & S) ((W1' & I1' & P1') & (W2' & I2' & P2') & S') H (V & B1 & B2) HB.
  destruct (pld_compose_inv _ _ _ _ H S S') as (C1 & C2 & SR).
  apply compose_pmfs_ok in C1; [|assumption..]. apply compose_pmfs_ok in C2; [|assumption..].
  split.
  - split; [|split; [|assumption]].
    + split; [exact (compose_wf _ _ _ _ W1 W1' (or_intror I1') C1)|].
      rewrite (co_rpess _ _ _ _ C1); assumption.
    + split; [exact (compose_wf _ _ _ _ W2 W2' (or_intror I2') C2)|].
      rewrite (co_rpess _ _ _ _ C2); assumption.
  - split; [apply valid_seq; [assumption | intros a Ha; apply (HB a Ha)]|]. split.
    + apply (compose_adaptive _ _ _ _ _ _ W1 W1' P1 (or_intror I1') C1 V B1).
      intros a Ha. destruct (HB a Ha) as (Va & Ba & _). auto.
    + rewrite swap_seq.
      apply (compose_adaptive _ _ _ _ _ _ W2 W2' P2 (or_intror I2') C2 (valid_swap _ V) B2).
      intros a Ha. destruct (HB a Ha) as (Va & _ & Ba). split; [apply valid_swap; assumption | assumption].
Qed.

Lemma compose_all_snoc D l D' tail :
  compose_all D (l ++ [(D', tail)]) =
  let? r := compose_all D l in pld_compose r D' tail.
Proof.
  revert D. induction l as [|[D1 t1] l IH]; intros D; cbn [compose_all app bind].
  - destruct (pld_compose D D' tail); reflexivity.
  - destruct (pld_compose D D1 t1); cbn [bind]; [apply IH | reflexivity].
Qed.

Lemma compose_all_bounds_aux Cs E : interaction Cs E ->
  forall D0 l D, wide_pld D0 -> pld_bounds D0 silent ->
  Cs = map (fun Dt => pld_bounds (fst Dt)) l -> (forall Dt, In Dt l -> sound_pld (fst Dt)) ->
  compose_all D0 l = Ok D -> wide_pld D /\ pld_bounds D E.
Proof.
  induction 1 as [|Cs E C E' HI IH HC]; intros D0 l D W0 B0 HE HS HA.
  - destruct l; [|discriminate]. cbn [compose_all] in HA. injection HA as <-. auto.
  - destruct (exists_last (l := l)) as (l' & [D' t] & ->).
    { intros ->. destruct Cs; discriminate. }
    rewrite map_app in HE. cbn [map fst] in HE.
    apply app_inj_tail in HE. destruct HE as [HE1 HE2].
    rewrite compose_all_snoc in HA. destruct (compose_all D0 l') as [r|] eqn:EA; [|discriminate].
    cbn [bind] in HA.
    destruct (IH D0 l' r W0 B0 HE1 ltac:(intros; apply HS, in_or_app; auto) EA) as [Wr Br].
    apply (pld_compose_step r D' t D E E'); auto.
    + apply (HS (D', t)). apply in_or_app; right; left; reflexivity.
    + intros a Ha. specialize (HC a Ha). rewrite HE2 in HC. exact HC.
Qed.

Lemma identity_eq disc : identity disc = Ok (new_pld (mkPmf disc 0 true (Sparse [(0%Z, 1)])) None).
Proof. reflexivity. Qed.

Lemma one_mass k : 0 <= dget0 [(0%Z, 1)] k.
Proof. unfold dget0. simpl. destruct k; simpl; lra. Qed.

Lemma identity_wf disc : 0 < disc -> wf (mkPmf disc 0 true (Sparse [(0%Z, 1)])).
Proof.
  intros H. split; [assumption|]. split; [simpl; lra|]. split; [exact one_mass|].
  cbn. constructor; [intros []|constructor].
Qed.

Lemma identity_delta disc e : 0 < disc ->
  pmf_delta (mkPmf disc 0 true (Sparse [(0%Z, 1)])) (Fin e) = pos (1 - exp e).
Proof.
  intros H. rewrite pmf_delta_psum by (apply identity_wf; assumption).
  unfold ptest, psum, hgain. cbn. rewrite Rmult_0_l, Rminus_0_r. lra.
Qed.

Lemma identity_sound disc I : 0 < disc -> identity disc = Ok I -> sound_pld I.
Proof.
  intros Hd H. rewrite identity_eq in H. injection H as <-.
  assert (S : sound_pmf (mkPmf disc 0 true (Sparse [(0%Z, 1)]))).
  { split; [apply identity_wf; assumption|]. split; [simpl; lra | reflexivity]. }
  split; [exact S | split; [exact S | reflexivity]].
Qed.

Lemma identity_bounds disc I : 0 < disc -> identity disc = Ok I -> pld_bounds I silent.
Proof.
  intros Hd H. rewrite identity_eq in H. injection H as <-.
  split; [apply valid_silent|].
  assert (X : profile_bounds (fun eps => pmf_delta (mkPmf disc 0 true (Sparse [(0%Z, 1)])) (Fin eps)) silent).
  { intros eps. apply dp_iff_hockey. rewrite identity_delta by assumption.
    unfold hockey_stick. cbn. right. rewrite Rplus_0_r. f_equal. lra. }
  split; exact X.
Qed.

Lemma wide_delta_sound D E eps : wide_pld D -> pld_bounds D E -> dp_both E eps (pld_delta D (Fin eps)).
Proof.
  intros (_ & _ & HS) (_ & B1 & B2). specialize (B1 eps). specialize (B2 eps).
  unfold pld_delta. destruct (symmetric D) eqn:S.
  - rewrite (HS eq_refl) in B2. split; assumption.
  - split; intros ev.
    + eapply Rle_trans; [apply (B1 ev)|]. apply Rplus_le_compat_l, Rmax_l.
    + eapply Rle_trans; [apply (B2 ev)|]. apply Rplus_le_compat_l, Rmax_r.
Qed.

Lemma wide_epsilon_sound D E delta e : wide_pld D -> pld_bounds D E ->
  pld_epsilon D delta = Ok (Fin e) -> dp_both E e delta.
Proof.
  intros S B H. pose proof S as ((W1 & _) & (W2 & _) & HS).
  destruct (pld_epsilon_spec D delta W1 W2 HS) as [[E1 _]|(_ & _ & e' & E1 & _ & D1 & _)].
  - congruence.
  - rewrite E1 in H. injection H as ->. destruct (wide_delta_sound D E e S B) as [X Y].
    destruct B as [V _].
    split; eapply dp_mono; try apply X; try apply Y; try lra; auto. apply valid_swap; assumption.
Qed.

Lemma adaptive_accounting disc I l D E : 0 < disc -> identity disc = Ok I ->
  (forall Dt, In Dt l -> sound_pld (fst Dt)) ->
  compose_all I l = Ok D ->
  interaction (map (fun Dt => pld_bounds (fst Dt)) l) E ->
  (forall eps, dp_both E eps (pld_delta D (Fin eps))) /\
  (forall delta e, pld_epsilon D delta = Ok (Fin e) -> dp_both E e delta).
Proof.
  intros Hd HI HS HA HE.
  destruct (compose_all_bounds_aux _ _ HE I l D (sound_wide _ (identity_sound disc I Hd HI))
     (identity_bounds disc I Hd HI) eq_refl HS HA) as [W B].
  split; intros; [apply wide_delta_sound; assumption | eapply wide_epsilon_sound; eassumption].
Qed.

(** ** C15 *)
Lemma wf_of_ok p q r : wf p -> wf q -> infinity_mass p <= 1 -> infinity_mass q <= 1 ->
  compose_pmfs p q 0 = Ok r -> wf r /\ infinity_mass r <= 1.
Proof.
  intros Wp Wq Ip Iq H. apply compose_pmfs_ok in H; [|assumption..].
  split; [exact (compose_wf _ _ _ _ Wp Wq (or_introl Ip) H)|].
  destruct (co_exact _ _ _ _ H eq_refl) as [_ ->]. unfold combine_inf.
  destruct Wp as (_ & X & _), Wq as (_ & Y & _). nra.
Qed.

Lemma truncation p q tail r0 r e :
  wf p -> wf q -> infinity_mass p <= 1 -> infinity_mass q <= 1 -> 0 <= tail ->
  compose_pmfs p q 0 = Ok r0 -> compose_pmfs p q tail = Ok r ->
  (pessimistic_estimate p = true ->
     pmf_delta r0 (Fin e) <= pmf_delta r (Fin e) <= pmf_delta r0 (Fin e) + tail /\
     pmf_delta r MInf = pmf_delta r0 MInf) /\
  (pessimistic_estimate p = false ->
     pmf_delta r (Fin e) <= pmf_delta r0 (Fin e) <= pmf_delta r (Fin e) + tail).
Proof.
  intros Wp Wq Ip Iq Ht H0 H.
  apply compose_pmfs_ok in H0; [|assumption..]. apply compose_pmfs_ok in H; [|assumption..].
  assert (W0 := compose_wf _ _ _ _ Wp Wq (or_introl Ip) H0).
  assert (W := compose_wf _ _ _ _ Wp Wq (or_introl Ip) H).
  destruct (co_exact _ _ _ _ H0 eq_refl) as [X0 I0].
  rewrite !pmf_delta_minf by assumption.
  rewrite !pmf_delta_psum by assumption. unfold total.
  rewrite (co_rdisc _ _ _ _ H0), (co_rdisc _ _ _ _ H).
  assert (Z0 : ptest r0 (hgain (discretization p) e) 1 =
    conv2 p q (hgain (discretization p) e) + combine_inf (infinity_mass p) (infinity_mass q) * 1).
  { unfold ptest. rewrite X0, I0. reflexivity. }
  rewrite Z0, (X0 (fun _ => 1)), I0.
  assert (Hm : mono (hgain (discretization p) e)) by (unfold mono; apply hgain_mono; apply Wp).
  assert (Hb : forall z, 0 <= hgain (discretization p) e z <= 1)
    by (intros; split; [apply hgain_nonneg | apply hgain_le_1]).
  split; intros HP.
  - destruct (co_pes _ _ _ _ H HP) as [T M]. specialize (M _ 1 Hm Hb).
    destruct M as [M1 M2]. specialize (M2 Ht). unfold total in T. lra.
  - destruct (co_opt _ _ _ _ H HP) as [I M]. specialize (M _ 1 Hm Hb).
    destruct M as [M1 M2]. specialize (M2 Ht). unfold ptest. rewrite I. lra.
Qed.

(** ** C17 *)
Lemma mass_psum_nodup p k :
  match pmf_body p with Sparse d => NoDup (map fst d) | _ => True end ->
  mass p k = psum p (ind k).
Proof.
  intros H. unfold mass, psum. destruct (pmf_body p).
  - symmetry. apply dsum_ind; assumption.
  - symmetry. apply lsum_ind.
Qed.

Lemma psum_swap p q (f : Z -> Z -> R) : wf p -> wf q ->
  psum p (fun i => psum q (fun j => f i j)) = psum q (fun j => psum p (fun i => f i j)).
Proof.
  intros Wp Wq. rewrite (psum_covers p (support p)) by (auto using support_covers).
  rewrite (psum_ext q _ (fun j => rsum (fun i => mass p i * f i j) (support p))).
  2:{ intros j. apply psum_covers; auto using support_covers. }
  rewrite psum_rsum. apply rsum_ext. intros i _. rewrite psum_scal. reflexivity.
Qed.

Lemma compose_mass p q r k ks : wf p -> wf q -> compose_pmfs p q 0 = Ok r -> covers ks p ->
  mass r k = rsum (fun i => mass p i * mass q (k - i)) ks /\
  1 - infinity_mass r = (1 - infinity_mass p) * (1 - infinity_mass q) /\
  discretization r = discretization p.
Proof.
  intros Wp Wq H C. apply compose_pmfs_ok in H; [|assumption..].
  destruct (co_exact _ _ _ _ H eq_refl) as [X I].
  split; [|split; [rewrite I; unfold combine_inf; lra | apply (co_rdisc _ _ _ _ H)]].
  rewrite mass_psum_nodup by apply (co_nodup _ _ _ _ H). rewrite X. unfold conv2.
  rewrite (psum_covers p ks) by assumption. apply rsum_ext. intros i _. f_equal.
  rewrite (mass_psum q) by assumption. apply psum_ext. intros j. unfold ind.
  destruct (Z.eqb_spec (i + j) k), (Z.eqb_spec j (k - i)); try reflexivity; lia.
Qed.

Lemma same_by_psum p q :
  match pmf_body p with Sparse d => NoDup (map fst d) | _ => True end ->
  match pmf_body q with Sparse d => NoDup (map fst d) | _ => True end ->
  (forall g, psum p g = psum q g) -> infinity_mass p = infinity_mass q ->
  discretization p = discretization q -> same_distribution p q.
Proof.
  intros H1 H2 H HI HD. split; [|auto]. intros k. rewrite !mass_psum_nodup by assumption. apply H.
Qed.

Lemma compose_comm p q r r' : wf p -> wf q ->
  compose_pmfs p q 0 = Ok r -> compose_pmfs q p 0 = Ok r' -> same_distribution r r'.
Proof.
  intros Wp Wq H H'. apply compose_pmfs_ok in H; [|assumption..]. apply compose_pmfs_ok in H'; [|assumption..].
  destruct (co_exact _ _ _ _ H eq_refl) as [X I]. destruct (co_exact _ _ _ _ H' eq_refl) as [X' I'].
  apply same_by_psum; [apply (co_nodup _ _ _ _ H) | apply (co_nodup _ _ _ _ H') | | |].
  - intros g. rewrite X, X'. unfold conv2. rewrite psum_swap by assumption.
    apply psum_ext. intros j. apply psum_ext. intros i. f_equal. lia.
  - rewrite I, I'. unfold combine_inf. lra.
  - rewrite (co_rdisc _ _ _ _ H), (co_rdisc _ _ _ _ H'). symmetry. apply (co_disc _ _ _ _ H).
Qed.

Lemma compose_assoc p q s pq qs r r' : wf p -> wf q -> wf s ->
  infinity_mass p <= 1 -> infinity_mass q <= 1 -> infinity_mass s <= 1 ->
  compose_pmfs p q 0 = Ok pq -> compose_pmfs pq s 0 = Ok r ->
  compose_pmfs q s 0 = Ok qs -> compose_pmfs p qs 0 = Ok r' -> same_distribution r r'.
Proof.
  intros Wp Wq Ws Ip Iq Is H1 H2 H3 H4.
  destruct (wf_of_ok p q pq Wp Wq Ip Iq H1) as [Wpq _].
  destruct (wf_of_ok q s qs Wq Ws Iq Is H3) as [Wqs _].
  apply compose_pmfs_ok in H1; [|assumption..]. apply compose_pmfs_ok in H2; [|assumption..].
  apply compose_pmfs_ok in H3; [|assumption..]. apply compose_pmfs_ok in H4; [|assumption..].
  destruct (co_exact _ _ _ _ H1 eq_refl) as [X1 I1]. destruct (co_exact _ _ _ _ H2 eq_refl) as [X2 I2].
  destruct (co_exact _ _ _ _ H3 eq_refl) as [X3 I3]. destruct (co_exact _ _ _ _ H4 eq_refl) as [X4 I4].
  apply same_by_psum; [apply (co_nodup _ _ _ _ H2) | apply (co_nodup _ _ _ _ H4) | | |].
  - intros g. rewrite X2, X4. unfold conv2. rewrite X1. unfold conv2.
    apply psum_ext. intros i. rewrite X3. unfold conv2. apply psum_ext. intros j. apply psum_ext.
    intros k. f_equal. lia.
  - rewrite I2, I4, I1, I3. unfold combine_inf. lra.
  - rewrite (co_rdisc _ _ _ _ H2), (co_rdisc _ _ _ _ H4), (co_rdisc _ _ _ _ H1). reflexivity.
Qed.

Lemma compose_same p p' q q' r r' : wf p -> wf q -> wf p' -> wf q' ->
  same_distribution p p' -> same_distribution q q' ->
  compose_pmfs p q 0 = Ok r -> compose_pmfs p' q' 0 = Ok r' -> same_distribution r r'.
Proof.
  intros Wp Wq Wp' Wq' Sp Sq H H'.
  assert (K : forall a b, wf a -> wf b -> same_distribution a b -> forall g, psum a g = psum b g).
  { intros a b Wa Wb (M & _ & _) g.
    rewrite (psum_covers a (support a)) by (auto using support_covers).
    rewrite (psum_covers b (support a)); [|assumption|].
    - apply rsum_ext. intros; rewrite M; reflexivity.
    - destruct (support_covers a Wa) as [N Cv]. split; [assumption|]. intros k. rewrite <- M. apply Cv. }
  apply compose_pmfs_ok in H; [|assumption..]. apply compose_pmfs_ok in H'; [|assumption..].
  destruct (co_exact _ _ _ _ H eq_refl) as [X I]. destruct (co_exact _ _ _ _ H' eq_refl) as [X' I'].
  apply same_by_psum; [apply (co_nodup _ _ _ _ H) | apply (co_nodup _ _ _ _ H') | | |].
  - intros g. rewrite X, X'. unfold conv2. rewrite (K p p' Wp Wp' Sp). apply psum_ext. intros i.
    apply K; assumption.
  - destruct Sp as (_ & Ep & _), Sq as (_ & Eq & _). rewrite I, I', Ep, Eq. reflexivity.
  - rewrite (co_rdisc _ _ _ _ H), (co_rdisc _ _ _ _ H'). apply Sp.
Qed.

Lemma compose_identity_r p disc I r : wf p -> 0 < disc -> identity disc = Ok I ->
  compose_pmfs p (pmf_remove I) 0 = Ok r -> same_distribution r p.
Proof.
  intros Wp Hd HI H. rewrite identity_eq in HI. injection HI as <-. cbn [pmf_remove new_pld] in H.
  apply compose_pmfs_ok in H; [|assumption | apply identity_wf; assumption].
  destruct (co_exact _ _ _ _ H eq_refl) as [X E].
  apply same_by_psum; [apply (co_nodup _ _ _ _ H) | | | |].
  - destruct Wp as (_ & _ & _ & N). exact N.
  - intros g. rewrite X. unfold conv2. apply psum_ext. intros i. unfold psum, dsum. cbn.
    rewrite Z.add_0_r. lra.
  - rewrite E. unfold combine_inf. cbn. lra.
  - apply (co_rdisc _ _ _ _ H).
Qed.

(** when composition succeeds *)
Lemma to_dense_total p : pmf_size p <> 0%nat -> exists q, to_dense p = Ok q.
Proof.
  unfold to_dense, pmf_size. destruct (pmf_body p) as [d|lo l] eqn:E; [|eauto].
  unfold dictionary_to_list. destruct d as [|[k v] d]; [simpl; congruence|].
  intros _. cbn. eauto.
Qed.

Lemma skip_prefix_lt thr l : forall s, (forall x, In x l -> 0 <= x) -> thr < s + lmass l ->
  s <= thr -> (skip_prefix thr s l < length l)%nat.
Proof.
  induction l as [|x l IH]; intros s Hn H Hs.
  - simpl in H. lra.
  - cbn [skip_prefix length]. destruct (Rltb_spec thr (s + x)); [lia|].
    apply -> Nat.succ_lt_mono. apply IH; [intros; apply Hn; right; assumption | |lra].
    cbn [rsum] in H. lra.
Qed.

Lemma truncate_total probs tail pess : (forall x, In x probs -> 0 <= x) -> 0 <= tail ->
  (tail = 0 \/ tail / 2 < lmass probs) -> exists r, truncate_tails probs tail pess = Ok r.
Proof.
  intros Hn Ht H. unfold truncate_tails. destruct (Reqb_spec tail 0) as [Z|NZ]; [eauto|].
  destruct H as [H|H]; [contradiction|].
  assert (Hl : (find_prefix probs (tail / 2) < length probs)%nat).
  { apply skip_prefix_lt; [assumption | lra | lra]. }
  set (li := find_prefix probs (tail / 2)) in *.
  set (ri := Nat.max (length probs - find_prefix (rev probs) (tail / 2)) (li + 1)).
  assert (HL : length (firstn (ri - li) (skipn li probs)) <> 0%nat).
  { rewrite firstn_length, skipn_length. unfold ri. lia. }
  destruct pess.
  - destruct (firstn (ri - li) (skipn li probs)) eqn:E; [simpl in HL; lia | eauto].
  - destruct (rev (firstn (ri - li) (skipn li probs))) eqn:E; [|eauto].
    apply (f_equal (@length R)) in E. rewrite rev_length in E. simpl in E. lia.
Qed.

Lemma pmf_compose_total p q tail : wf p -> wf q -> same_class p q = true ->
  discretization p = discretization q -> pessimistic_estimate p = pessimistic_estimate q ->
  0 <= tail -> (tail = 0 \/ tail / 2 < psum p (fun _ => 1) * psum q (fun _ => 1)) ->
  exists r, pmf_compose p q tail = Ok r.
Proof.
  intros Wp Wq HC HD HP Ht HM. unfold pmf_compose, validate_composable.
  rewrite HC, HD, HP, Reqb_refl, eqb_reflx. cbn [negb bind].
  unfold same_class in HC. destruct (pmf_body p) as [d1|lo1 l1] eqn:E1, (pmf_body q) as [d2|lo2 l2] eqn:E2;
    try discriminate.
  - set (c := sparse_convolve d1 d2).
    assert (N1 : forall kv, In kv d1 -> 0 <= snd kv).
    { destruct Wp as (_&_&M&N). rewrite E1 in N. apply nonneg_dict_iff; [assumption|].
      intros k. specialize (M k). unfold mass in M. rewrite E1 in M. exact M. }
    assert (N2 : forall kv, In kv d2 -> 0 <= snd kv).
    { destruct Wq as (_&_&M&N). rewrite E2 in N. apply nonneg_dict_iff; [assumption|].
      intros k. specialize (M k). unfold mass in M. rewrite E2 in M. exact M. }
    destruct (sparse_convolve_spec d1 d2 (fun _ => 1)) as [ES NS].
    destruct (truncate_total (map (dget0 c) (zsort (map fst c))) tail (pessimistic_estimate q)) as [[[o l] r] E].
    + apply sparse_values; [exact NS | apply conv2_nonneg_dict; assumption].
    + assumption.
    + destruct HM as [HM|HM]; [left; assumption | right].
      rewrite <- (lsum_one _ 0%Z).
      pose proof (lsum_sorted c (fun _ => 1) NS) as L. cbv beta in L. rewrite L. fold c in ES. rewrite ES.
      unfold psum in HM. rewrite E1, E2 in HM.
      replace (dsum d1 (fun _ => dsum d2 (fun _ => 1))) with (dsum d1 (fun _ => 1) * dsum d2 (fun _ => 1)); [assumption|].
      unfold dsum at 1 3. rewrite <- rsum_scal_r. apply rsum_ext. intros; lra.
    + fold c. rewrite E. cbn [bind]. eauto.
  - assert (N1 := wf_dense_nonneg p _ _ Wp E1). assert (N2 := wf_dense_nonneg q _ _ Wq E2).
    destruct (truncate_total (convolve l1 l2) tail (pessimistic_estimate q)) as [[[o l] r] E].
    + apply convolve_nonneg; assumption.
    + assumption.
    + destruct HM as [HM|HM]; [left; assumption | right].
      rewrite <- (lsum_one _ (lo1 + lo2)%Z). rewrite convolve_lsum.
      unfold psum in HM. rewrite E1, E2 in HM. rewrite !lsum_const in *. lra.
    + rewrite E. cbn [bind]. eauto.
Qed.

Lemma compose_total p q tail : wf p -> wf q ->
  discretization p = discretization q -> pessimistic_estimate p = pessimistic_estimate q ->
  pmf_size p <> 0%nat -> pmf_size q <> 0%nat ->
  0 <= tail -> (tail = 0 \/ tail / 2 < psum p (fun _ => 1) * psum q (fun _ => 1)) ->
  exists r, compose_pmfs p q tail = Ok r.
Proof.
  intros Wp Wq HD HP Sp Sq Ht HM. unfold compose_pmfs.
  assert (HDense : exists r, (let? p := to_dense p in let? q := to_dense q in pmf_compose p q tail) = Ok r).
  { destruct (to_dense_total p Sp) as [p' Ep]. destruct (to_dense_total q Sq) as [q' Eq].
    rewrite Ep, Eq. cbn [bind].
    destruct (to_dense_ok p p' Wp Ep) as (Wp' & Xp & Ip & Dp & Pp & lo & l & Bp).
    destruct (to_dense_ok q q' Wq Eq) as (Wq' & Xq & Iq & Dq & Pq & lo' & l' & Bq).
    apply pmf_compose_total; auto.
    - unfold same_class. rewrite Bp, Bq. reflexivity.
    - congruence.
    - congruence.
    - rewrite Xp, Xq. assumption. }
  destruct (pmf_body p) eqn:E1, (pmf_body q) eqn:E2; try exact HDense.
  destruct (Z.of_nat (pmf_size p) * Z.of_nat (pmf_size q) <=? MAX_PMF_SPARSE_SIZE)%Z; [|exact HDense].
  apply pmf_compose_total; auto. unfold same_class. rewrite E1, E2. reflexivity.
Qed.
