(** Dense conversion, [compose_pmfs] and the adaptive composition bound. *)
From Verif Require Import Base XReal Exn PyDict ModelCommon ModelPmf SpecDP SpecPmf
  ProofDP ProofDict ProofPmf ProofCompose.
From Coq Require Import Permutation Sorted.

Lemma zmin_list_le x l : (zmin_list x l <= x)%Z /\ forall y, In y l -> (zmin_list x l <= y)%Z.
Proof.
  revert x. induction l as [|y l IH]; intros x; simpl; [split; [lia | contradiction]|].
  destruct (IH (Z.min x y)) as [H1 H2]. split; [lia|].
  intros z [<-|Hz]; [lia | auto].
Qed.
Lemma zmax_list_ge x l : (x <= zmax_list x l)%Z /\ forall y, In y l -> (y <= zmax_list x l)%Z.
Proof.
  revert x. induction l as [|y l IH]; intros x; simpl; [split; [lia | contradiction]|].
  destruct (IH (Z.max x y)) as [H1 H2]. split; [lia|].
  intros z [<-|Hz]; [lia | auto].
Qed.
Lemma zmin_list_In x l : In (zmin_list x l) (x :: l).
Proof.
  revert x. induction l as [|y l IH]; intros x; simpl; [auto|].
  destruct (IH (Z.min x y)) as [H|H]; [|auto].
  destruct (Z.min_spec x y) as [[_ E]|[_ E]]; rewrite E in *; auto.
Qed.
Lemma zmax_list_In x l : In (zmax_list x l) (x :: l).
Proof.
  revert x. induction l as [|y l IH]; intros x; simpl; [auto|].
  destruct (IH (Z.max x y)) as [H|H]; [|auto].
  destruct (Z.max_spec x y) as [[_ E]|[_ E]]; rewrite E in *; auto.
Qed.

Lemma lsum_zrange lo n f g :
  lsum lo (map f (zrange lo n)) g = rsum (fun k => f k * g k) (zrange lo n).
Proof.
  revert lo. induction n as [|n IH]; intros lo; [reflexivity|].
  cbn [zrange map lsum rsum]. rewrite IH. reflexivity.
Qed.

Lemma dictionary_to_list_ok d lo l : dictionary_to_list d = Ok (lo, l) ->
  exists n, l = map (dget0 d) (zrange lo n) /\ (0 < n)%nat /\
    (forall k, In k (keys d) -> In k (zrange lo n)) /\
    In lo (keys d) /\ In (lo + Z.of_nat n - 1)%Z (keys d).
Proof.
  unfold dictionary_to_list, keys. destruct (map fst d) as [|k ks]; [discriminate|].
  intros H. injection H as <- <-.
  set (mn := zmin_list k ks). set (mx := zmax_list k ks).
  exists (Z.to_nat (mx + 1 - mn)).
  destruct (zmin_list_le k ks) as [M1 M2]. destruct (zmax_list_ge k ks) as [X1 X2].
  fold mn in M1, M2. fold mx in X1, X2.
  split; [reflexivity|]. split; [lia|]. split; [|split].
  - intros z Hz. apply zrange_In. destruct Hz as [<-|Hz]; [lia|].
    specialize (M2 z Hz). specialize (X2 z Hz). lia.
  - apply zmin_list_In.
  - replace (mn + Z.of_nat (Z.to_nat (mx + 1 - mn)) - 1)%Z with mx by lia. apply zmax_list_In.
Qed.

Lemma dictionary_to_list_sum d lo l g : NoDup (keys d) -> dictionary_to_list d = Ok (lo, l) ->
  lsum lo l g = dsum d g.
Proof.
  intros ND H. destruct (dictionary_to_list_ok d lo l H) as (n & -> & _ & Hk & _).
  rewrite lsum_zrange.
  transitivity (dsum d (fun z => rsum (fun k => ind k z * g k) (zrange lo n))).
  - transitivity (rsum (fun k => dsum d (fun z => ind k z * g k)) (zrange lo n)).
    + apply rsum_ext. intros k _. rewrite <- (dsum_ind d k) by assumption.
      unfold dsum. rewrite <- rsum_scal_r. apply rsum_ext. intros; lra.
    + unfold dsum. rewrite rsum_swap. apply rsum_ext. intros; rewrite rsum_scal; reflexivity.
  - apply rsum_ext. intros [k v] Hin. cbn [fst snd]. f_equal.
    rewrite rsum_ind by apply zrange_NoDup.
    destruct (in_dec Z.eq_dec k (zrange lo n)) as [|n0]; [reflexivity|].
    exfalso. apply n0, Hk. apply in_map_iff. exists (k, v). auto.
Qed.

Lemma to_dense_ok p q : wf p -> to_dense p = Ok q ->
  wf q /\ (forall g, psum q g = psum p g) /\ infinity_mass q = infinity_mass p /\
  discretization q = discretization p /\ pessimistic_estimate q = pessimistic_estimate p /\
  exists lo l, pmf_body q = Dense lo l.
Proof.
  intros W H. unfold to_dense in H. destruct (pmf_body p) as [d|lo l] eqn:E.
  - apply bind_Ok in H. destruct H as ([lo l] & HL & H). injection H as <-.
    destruct W as (Wd & Wi & Wm & ND). rewrite E in ND.
    cbn [infinity_mass discretization pessimistic_estimate pmf_body].
    split; [|split; [|eauto]].
    + apply wf_dense; auto. destruct (dictionary_to_list_ok _ _ _ HL) as (n & -> & _).
      intros x Hx. apply in_map_iff in Hx. destruct Hx as (k & <- & _).
      specialize (Wm k). unfold mass in Wm. rewrite E in Wm. exact Wm.
    + intros g. unfold psum. rewrite E. cbn [pmf_body]. apply dictionary_to_list_sum; assumption.
    + repeat split; eauto.
  - injection H as <-. repeat split; auto; try apply W. eauto.
Qed.

Lemma conv2_ext p q p' q' g : (forall g, psum p' g = psum p g) -> (forall g, psum q' g = psum q g) ->
  conv2 p' q' g = conv2 p q g.
Proof. intros H1 H2. unfold conv2. rewrite H1. apply psum_ext. intros; apply H2. Qed.

Lemma compose_pmfs_ok p q tail r :
  wf p -> wf q -> compose_pmfs p q tail = Ok r -> compose_ok p q tail r.
Proof.
  intros Wp Wq H.
  assert (HD : forall p' q', to_dense p = Ok p' -> to_dense q = Ok q' ->
            pmf_compose p' q' tail = Ok r -> compose_ok p q tail r).
  { intros p' q' H1 H2 H3.
    destruct (to_dense_ok _ _ Wp H1) as (W1 & S1 & I1 & D1 & P1 & _).
    destruct (to_dense_ok _ _ Wq H2) as (W2 & S2 & I2 & D2 & P2 & _).
    destruct (pmf_compose_ok _ _ _ _ W1 W2 H3) as [a b c d e f g h i j].
    rewrite D1, D2, P1, P2, I1, I2 in *.
    assert (EC : forall g, conv2 p' q' g = conv2 p q g)
      by (intros; apply conv2_ext; assumption).
    constructor; auto.
    - intros T0. destruct (g T0) as [g1 g2]. split; [intros; rewrite g1; apply EC | assumption].
    - intros HP. destruct (i HP) as [i1 i2]. split; [rewrite <- EC; assumption|].
      intros g0 G. rewrite <- EC. apply i2.
    - intros HP. destruct (j HP) as [j1 j2]. split; [assumption|].
      intros g0 G. rewrite <- EC. apply j2. }
  unfold compose_pmfs in H.
  destruct (pmf_body p) eqn:Ep; destruct (pmf_body q) eqn:Eq.
  - destruct (_ <=? _)%Z.
    + apply pmf_compose_ok; assumption.
    + apply bind_Ok in H. destruct H as (p' & H1 & H). apply bind_Ok in H.
      destruct H as (q' & H2 & H). eapply HD; eassumption.
  - apply bind_Ok in H. destruct H as (p' & H1 & H). apply bind_Ok in H.
    destruct H as (q' & H2 & H). eapply HD; eassumption.
  - apply bind_Ok in H. destruct H as (p' & H1 & H). apply bind_Ok in H.
    destruct H as (q' & H2 & H). eapply HD; eassumption.
  - apply bind_Ok in H. destruct H as (p' & H1 & H). apply bind_Ok in H.
    destruct H as (q' & H2 & H). eapply HD; eassumption.
Qed.

(** ** The adaptive composition bound *)
Definition rms (p : pmf) : list (R * R) :=
  map (fun kv => (exp (- (IZR (fst kv) * discretization p)), snd kv)) (losses_probs p).

Definition hg (disc a b : R) (k : Z) : R := pos (a - b * exp (- (IZR k * disc))).

Lemma curve_ptest p a b : wf p ->
  curve (infinity_mass p) (rms p) a b = ptest p (hg (discretization p) a b) a.
Proof.
  intros W. unfold curve, ptest, rms. rewrite rsum_map. cbn [fst snd].
  rewrite Rplus_comm. f_equal. rewrite <- psum_losses by assumption. reflexivity.
Qed.

Lemma hg_gain disc e k : hg disc 1 (exp e) k = hgain disc e k.
Proof. unfold hg, hgain. f_equal. rewrite <- exp_plus. reflexivity. Qed.

Lemma pmf_delta_curve p e : wf p ->
  pmf_delta p (Fin e) = curve (infinity_mass p) (rms p) 1 (exp e).
Proof.
  intros W. rewrite pmf_delta_psum, curve_ptest by assumption. unfold ptest. f_equal.
  apply psum_ext. intros. symmetry. apply hg_gain.
Qed.

Lemma hg_mono disc a b : 0 < disc -> 0 <= b -> mono (hg disc a b).
Proof.
  intros Hd Hb i j Hij. apply pos_le.
  assert (exp (- (IZR j * disc)) <= exp (- (IZR i * disc))).
  { apply exp_le. apply IZR_le in Hij. nra. }
  nra.
Qed.
Lemma hg_bound disc a b k : 0 <= a -> 0 <= b -> 0 <= hg disc a b k <= a.
Proof.
  intros Ha Hb. split; [apply pos_nonneg|]. apply pos_le_bound; [assumption|].
  pose proof (exp_pos (- (IZR k * disc))). nra.
Qed.

Lemma losses_nonneg p kv : wf p -> In kv (losses_probs p) -> 0 <= snd kv.
Proof.
  intros W Hin. unfold losses_probs in Hin. destruct (pmf_body p) as [d|lo l] eqn:E.
  - apply in_map_iff in Hin. destruct Hin as (k & <- & _). destruct W as (_&_&Wm&_).
    specialize (Wm k). unfold mass in Wm. rewrite E in Wm. exact Wm.
  - destruct kv as [k v]. apply in_combine_r in Hin. eapply wf_dense_nonneg; eassumption.
Qed.

Lemma okl_rms p : wf p -> okl (rms p).
Proof.
  intros W rm Hin. unfold rms in Hin. apply in_map_iff in Hin. destruct Hin as (kv & <- & Hin).
  simpl. split; [apply exp_pos | eapply losses_nonneg; eassumption].
Qed.

Lemma losses_sorted p : wf p -> StronglySorted Z.lt (map fst (losses_probs p)).
Proof.
  intros (_ & _ & _ & ND). unfold losses_probs. destruct (pmf_body p) as [d|lo l].
  - rewrite map_map. cbn [fst]. rewrite map_id. apply zsort_lt. assumption.
  - change (map fst (combine (zrange lo (length l)) l)) with (keys (combine (zrange lo (length l)) l)).
    rewrite keys_combine by apply zrange_length. apply zrange_sorted.
Qed.

Lemma desc_rms p : wf p -> desc (rms p).
Proof.
  intros W. pose proof (losses_sorted p W) as S. destruct W as (Hd & _).
  unfold rms. induction (losses_probs p) as [|kv l IH]; simpl in *; [constructor|].
  inversion S; subst. constructor; [|auto].
  intros x Hx. apply in_map_iff in Hx. destruct Hx as (kv' & <- & Hin). simpl.
  apply exp_le. rewrite Forall_forall in H2.
  assert (fst kv < fst kv')%Z by (apply H2, in_map, Hin).
  apply IZR_lt in H. nra.
Qed.

Lemma conv2_prod p q a b : wf p -> wf q -> discretization q = discretization p ->
  rsum (fun rm => snd rm * pos (a - b * fst rm)) (prodl (rms p) (rms q)) =
  conv2 p q (hg (discretization p) a b).
Proof.
  intros Wp Wq ED. rewrite rsum_prodl. cbn [fst snd]. unfold rms. rewrite (rsum_map _ _ (losses_probs p)).
  cbn [fst snd]. unfold conv2. rewrite <- psum_losses by assumption.
  apply rsum_ext. intros [k v] _. cbn [fst snd]. rewrite <- psum_losses by assumption.
  rewrite <- rsum_scal. rewrite rsum_map. cbn [fst snd].
  apply rsum_ext. intros [k2 v2] _. cbn [fst snd]. rewrite ED. unfold hg.
  rewrite <- exp_plus, plus_IZR.
  replace (- (IZR k * discretization p) + - (IZR k2 * discretization p))
    with (- ((IZR k + IZR k2) * discretization p)) by lra. lra.
Qed.

Lemma bounds_iff p E : wf p -> valid E ->
  (profile_bounds (fun e => pmf_delta p (Fin e)) E <-> hbounds (infinity_mass p) (rms p) E).
Proof.
  intros W V. split.
  - intros H. apply hbounds_of_eps; [assumption | apply W | apply okl_rms; assumption |].
    intros eps. rewrite <- pmf_delta_curve by assumption. apply dp_iff_hockey, H.
  - intros H eps. apply dp_iff_hockey. rewrite pmf_delta_curve by assumption.
    apply eps_of_hbounds. assumption.
Qed.

Lemma compose_wf p q tail r : wf p -> wf q -> infinity_mass p <= 1 \/ infinity_mass q <= 1 ->
  compose_ok p q tail r -> wf r.
Proof.
  intros Wp Wq HO C. destruct Wp as (Hd & Hi & _ & _). destruct Wq as (_ & Hi2 & _ & _).
  pose proof (co_inf _ _ _ _ C) as HI. unfold combine_inf in HI.
  split; [rewrite (co_rdisc _ _ _ _ C); assumption|].
  split; [destruct HO; nra|].
  split; [apply (co_nonneg _ _ _ _ C) | apply (co_nodup _ _ _ _ C)].
Qed.

Lemma compose_adaptive p q tail r E1 E2 :
  wf p -> wf q -> pessimistic_estimate p = true ->
  infinity_mass p <= 1 \/ infinity_mass q <= 1 ->
  compose_ok p q tail r ->
  valid E1 -> profile_bounds (fun e => pmf_delta p (Fin e)) E1 ->
  (forall a, In a (outs E1) ->
     valid (E2 a) /\ profile_bounds (fun e => pmf_delta q (Fin e)) (E2 a)) ->
  profile_bounds (fun e => pmf_delta r (Fin e)) (seq_exper E1 E2).
Proof.
  intros Wp Wq HP HO C V1 B1 H2.
  assert (Wr : wf r) by exact (compose_wf p q tail r Wp Wq HO C).
  assert (V : valid (seq_exper E1 E2)) by (apply valid_seq; [assumption | intros; apply H2; assumption]).
  apply bounds_iff; [assumption..|].
  apply bounds_iff in B1; [|assumption..].
  assert (CB : hbounds (infinity_mass p + infinity_mass q - infinity_mass p * infinity_mass q)
                (prodl (rms p) (rms q)) (seq_exper E1 E2)).
  { apply compose_bound; auto using okl_rms, desc_rms; try apply Wp; try apply Wq.
    intros o Ho. destruct (H2 o Ho) as [V2 B2]. split; [assumption|].
    apply bounds_iff in B2; assumption. }
  intros a b Ha Hb. eapply Rle_trans; [apply CB; assumption|].
  rewrite curve_ptest by assumption. unfold curve.
  rewrite conv2_prod by (auto; apply (co_disc _ _ _ _ C)).
  destruct (co_pes _ _ _ _ C HP) as [_ T].
  rewrite (co_rdisc _ _ _ _ C).
  destruct (T (hg (discretization p) a b) a) as [T1 _].
  - apply hg_mono; [apply Wp | assumption].
  - intros; apply hg_bound; assumption.
  - unfold combine_inf in T1. lra.
Qed.
