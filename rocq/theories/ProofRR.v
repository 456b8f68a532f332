(** from_randomized_response. *)
From Verif Require Import Base XReal Exn PyDict TypesRelation ModelCommon ModelPmf ModelPld ModelMake
  SpecDP SpecPmf SpecPld SpecMake ProofDP ProofDict ProofPmf ProofCompose ProofCompose2 ProofPld
  ProofMake ProofTwo.

Lemma buckets_NoDup k : NoDup (buckets k).
Proof.
  unfold buckets. apply FinFun.Injective_map_NoDup; [|apply seq_NoDup].
  intros a b H. lia.
Qed.
Lemma buckets_In k x : In x (buckets k) <-> (0 <= x < k)%Z.
Proof.
  unfold buckets. rewrite in_map_iff. split.
  - intros (n & <- & H). apply in_seq in H. lia.
  - intros H. exists (Z.to_nat x). split; [lia|]. apply in_seq. lia.
Qed.
Lemma buckets_length k : (0 <= k)%Z -> INR (length (buckets k)) = IZR k.
Proof.
  intros H. unfold buckets. rewrite map_length, seq_length, INR_IZR_INZ. f_equal. lia.
Qed.

Lemma bucket_sum1 k f x c : In x (buckets k) -> (forall o, In o (buckets k) -> o <> x -> f o = c) ->
  rsum f (buckets k) = f x + (IZR k - 1) * c.
Proof.
  intros Hx H. rewrite (rsum_ext f (fun o => c + ind o x * (f o - c))).
  - rewrite rsum_plus, rsum_const, rsum_ind, buckets_length by (try apply buckets_NoDup; apply buckets_In in Hx; lia).
    destruct (in_dec _ _ _); [lra | contradiction].
  - intros o Ho. unfold ind. destruct (Z.eqb_spec x o) as [->|N]; [lra|]. rewrite H; auto. lra.
Qed.
Lemma bucket_sum k f x y c : In x (buckets k) -> In y (buckets k) -> x <> y ->
  (forall o, In o (buckets k) -> o <> x -> o <> y -> f o = c) ->
  rsum f (buckets k) = f x + f y + (IZR k - 2) * c.
Proof.
  intros Hx Hy N H. rewrite (rsum_ext f (fun o => c + (ind o x * (f o - c) + ind o y * (f o - c)))).
  - rewrite !rsum_plus, rsum_const, !rsum_ind, buckets_length by (try apply buckets_NoDup; apply buckets_In in Hx; lia).
    destruct (in_dec _ x _); [|contradiction]. destruct (in_dec _ y _); [lra | contradiction].
  - intros o Ho. unfold ind. destruct (Z.eqb_spec x o) as [<-|N1].
    + destruct (Z.eqb_spec y x); [congruence | lra].
    + destruct (Z.eqb_spec y o) as [<-|N2]; [lra|]. rewrite H; auto. lra.
Qed.

Section RR.
  Variables (p : R) (k : Z).
  Hypotheses (Hp : 0 < p < 1) (Hk : (1 < k)%Z).
  Let K := IZR k.
  Lemma K_ge : 2 <= K. Proof. unfold K. apply (IZR_le 2). lia. Qed.
  Lemma k3 : (2 < k)%Z -> 3 <= K. Proof. intros. unfold K. apply (IZR_le 3). lia. Qed.
  Lemma k2 : ~ (2 < k)%Z -> K = 2. Proof. intros. unfold K. f_equal. lia. Qed.

  Definition u0 := 1 - p * (IZR k - 1) / IZR k.
  Definition u1 := p / IZR k.
  Lemma u0_eq : u0 = 1 - p + u1.
  Proof. unfold u0, u1. fold K. pose proof K_ge. field. lra. Qed.
  Lemma u1_pos : 0 < u1. Proof. unfold u1. fold K. pose proof K_ge. apply Rdiv_lt_0_compat; lra. Qed.
  Lemma u0_pos : 0 < u0. Proof. rewrite u0_eq. pose proof u1_pos. lra. Qed.
  Lemma u_sum : u0 + (K - 1) * u1 = 1.
  Proof. unfold u0, u1. fold K. pose proof K_ge. field. lra. Qed.

  Lemma rr_x x o : rr_prob p k x o = if (o =? x)%Z then u0 else u1.
  Proof. unfold rr_prob. rewrite u0_eq. unfold u1. destruct (o =? x)%Z; lra. Qed.

  Lemma rr_sum_1 x : In x (buckets k) -> rsum (rr_prob p k x) (buckets k) = 1.
  Proof.
    intros Hx. rewrite (bucket_sum1 k _ x u1); [|assumption|].
    - rewrite rr_x, Z.eqb_refl. apply u_sum.
    - intros o _ N. rewrite rr_x. destruct (Z.eqb_spec o x); [contradiction | reflexivity].
  Qed.
  Lemma rr_exper_valid x y : In x (buckets k) -> In y (buckets k) -> valid (rr_exper p k x y).
  Proof.
    intros Hx Hy. pose proof u0_pos. pose proof u1_pos. split; [|split].
    - intros o _. cbn [prP prQ rr_exper]. rewrite !rr_x. destruct (o =? x)%Z, (o =? y)%Z; lra.
    - apply rr_sum_1. assumption.
    - apply rr_sum_1. assumption.
  Qed.
  Lemma rr_special_valid x : In x (buckets k) -> valid (rr_special p k x).
  Proof.
    intros Hx. pose proof u0_pos. pose proof u1_pos. pose proof K_ge. split; [|split].
    - intros o _. cbn [prP prQ rr_special]. rewrite rr_x. fold K.
      assert (0 < 1 / K) by (apply Rdiv_lt_0_compat; lra). destruct (o =? x)%Z; lra.
    - apply (rr_exper_valid x x Hx Hx).
    - cbn [prQ outs rr_special]. rewrite rsum_const, buckets_length by lia. fold K. field. lra.
  Qed.

  Lemma rr_hs x y eps : In x (buckets k) -> In y (buckets k) -> x <> y ->
    hockey_stick (rr_exper p k x y) eps =
    pos (u0 - exp eps * u1) + pos (u1 - exp eps * u0) + (K - 2) * pos (u1 - exp eps * u1).
  Proof.
    intros Hx Hy N. unfold hockey_stick. cbn [prP prQ outs rr_exper].
    rewrite (bucket_sum k _ x y (pos (u1 - exp eps * u1))); auto.
    - rewrite !rr_x, !Z.eqb_refl. destruct (Z.eqb_spec x y); [contradiction|].
      destruct (Z.eqb_spec y x); [congruence | reflexivity].
    - intros o _ N1 N2. rewrite !rr_x. destruct (Z.eqb_spec o x); [contradiction|].
      destruct (Z.eqb_spec o y); [contradiction | reflexivity].
  Qed.
  Lemma rr_special_hs x eps : In x (buckets k) ->
    hockey_stick (rr_special p k x) eps =
    pos (u0 - exp eps * (1 / K)) + (K - 1) * pos (u1 - exp eps * (1 / K)).
  Proof.
    intros Hx. unfold hockey_stick. cbn [prP prQ outs rr_special].
    rewrite (bucket_sum1 k _ x (pos (u1 - exp eps * (1 / K)))); auto.
    - rewrite rr_x, Z.eqb_refl. reflexivity.
    - intros o _ N. rewrite rr_x. destruct (Z.eqb_spec o x); [contradiction | reflexivity].
  Qed.
  Lemma rr_special_hs_swap x eps : In x (buckets k) ->
    hockey_stick (swap (rr_special p k x)) eps =
    pos (1 / K - exp eps * u0) + (K - 1) * pos (1 / K - exp eps * u1).
  Proof.
    intros Hx. unfold hockey_stick. cbn [prP prQ outs rr_special swap].
    rewrite (bucket_sum1 k _ x (pos (1 / K - exp eps * u1))); auto.
    - rewrite rr_x, Z.eqb_refl. reflexivity.
    - intros o _ N. rewrite rr_x. destruct (Z.eqb_spec o x); [contradiction | reflexivity].
  Qed.

  (** the dictionaries of the code *)
  Definition more : odict Z := if (2 <? k)%Z then [(2%Z, Some (ln ((IZR k - 2) * p / IZR k)))] else [].
  Definition rr_upper : odict Z := [(0%Z, Some (ln u0)); (1%Z, Some (ln u1))] ++ more.
  Definition rr_lower : odict Z := [(0%Z, Some (ln u1)); (1%Z, Some (ln u0))] ++ more.

  Lemma u2_eq : (IZR k - 2) * p / IZR k = (K - 2) * u1.
  Proof. unfold u1. fold K. pose proof K_ge. field. lra. Qed.

  Lemma rr_dist : distribution rr_upper /\ distribution rr_lower.
  Proof.
    pose proof u0_pos. pose proof u1_pos. pose proof u_sum. unfold distribution, rr_upper, rr_lower, more.
    rewrite u2_eq. destruct (Z.ltb_spec 2 k) as [L|L].
    - pose proof (k3 L). cbn [app map fst snd rsum lexp]. rewrite !exp_ln by nra.
      repeat split; try lra; repeat constructor; cbn; intuition discriminate.
    - assert (K = 2) by (apply k2; lia). cbn [app map fst snd rsum lexp]. rewrite !exp_ln by nra.
      repeat split; try nra; repeat constructor; cbn; intuition discriminate.
  Qed.

  Lemma two_hs_code upper lower eps : NoDup (map fst upper) -> NoDup (map fst lower) ->
    hockey_stick (two_exper Z.eqb upper lower) eps =
    rsum (only_upper Z.eqb lower) upper + rsum (fun ox => both Z.eqb upper lower eps (fst ox)) lower.
  Proof. apply hockey_two. apply Z.eqb_eq. Qed.

  Lemma rr_code_hs eps :
    hockey_stick (two_exper Z.eqb rr_upper rr_lower) eps =
    pos (u0 - exp eps * u1) + pos (u1 - exp eps * u0) + (K - 2) * pos (u1 - exp eps * u1).
  Proof.
    destruct rr_dist as [[N1 _] [N2 _]]. rewrite two_hs_code by assumption.
    pose proof u0_pos. pose proof u1_pos.
    unfold rr_upper, rr_lower, more. rewrite u2_eq. destruct (Z.ltb_spec 2 k) as [L|L].
    - pose proof (k3 L). cbn [app rsum only_upper oget both fst snd Z.eqb Pos.eqb lexp].
      rewrite !exp_ln by nra.
      replace ((K - 2) * u1 - exp eps * ((K - 2) * u1)) with ((K - 2) * (u1 - exp eps * u1)) by lra.
      rewrite pos_scal by lra. lra.
    - assert (EK : K = 2) by (apply k2; lia). rewrite EK.
      cbn [app rsum only_upper oget both fst snd Z.eqb Pos.eqb lexp]. rewrite !exp_ln by nra. lra.
  Qed.

  Lemma rr_code_hs_swap eps :
    hockey_stick (swap (two_exper Z.eqb rr_upper rr_lower)) eps =
    hockey_stick (two_exper Z.eqb rr_upper rr_lower) eps.
  Proof.
    destruct rr_dist as [[N1 _] [N2 _]]. rewrite hockey_two_swap by (try assumption; apply Z.eqb_eq).
    rewrite rr_code_hs, two_hs_code by assumption.
    pose proof u0_pos. pose proof u1_pos.
    unfold rr_upper, rr_lower, more. rewrite u2_eq. destruct (Z.ltb_spec 2 k) as [L|L].
    - pose proof (k3 L). cbn [app rsum only_upper oget both fst snd Z.eqb Pos.eqb lexp].
      rewrite !exp_ln by nra.
      replace ((K - 2) * u1 - exp eps * ((K - 2) * u1)) with ((K - 2) * (u1 - exp eps * u1)) by lra.
      rewrite pos_scal by lra. lra.
    - assert (EK : K = 2) by (apply k2; lia). rewrite EK.
      cbn [app rsum only_upper oget both fst snd Z.eqb Pos.eqb lexp]. rewrite !exp_ln by nra. lra.
  Qed.

  Definition sp_upper : odict Z :=
    [(0%Z, Some (ln u0)); (1%Z, Some (ln ((IZR k - 1) * p / IZR k)))].
  Definition sp_lower : odict Z :=
    [(0%Z, Some (- ln (IZR k))); (1%Z, Some (ln (1 + - (1 / IZR k))))].

  Lemma v1_eq : (IZR k - 1) * p / IZR k = (K - 1) * u1.
  Proof. unfold u1. fold K. pose proof K_ge. field. lra. Qed.
  Lemma w1_eq : 1 + - (1 / IZR k) = (K - 1) * (1 / K).
  Proof. fold K. pose proof K_ge. field. lra. Qed.
  Lemma w0_eq : exp (- ln (IZR k)) = 1 / K.
  Proof. fold K. pose proof K_ge. rewrite exp_Ropp, exp_ln by lra. field. lra. Qed.
  Lemma invK : 0 < 1 / K. Proof. pose proof K_ge. apply Rdiv_lt_0_compat; lra. Qed.

  Lemma sp_dist : distribution sp_upper /\ distribution sp_lower.
  Proof.
    pose proof u0_pos. pose proof u1_pos. pose proof u_sum. pose proof K_ge. pose proof invK.
    unfold distribution, sp_upper, sp_lower. rewrite v1_eq, w1_eq.
    cbn [app map fst snd rsum lexp]. rewrite w0_eq, !exp_ln by nra.
    assert (1 / K + ((K - 1) * (1 / K) + 0) = 1) by (field; lra).
    repeat split; try lra; repeat constructor; cbn; intuition discriminate.
  Qed.

  Lemma sp_code_hs eps :
    hockey_stick (two_exper Z.eqb sp_upper sp_lower) eps =
    pos (u0 - exp eps * (1 / K)) + (K - 1) * pos (u1 - exp eps * (1 / K)).
  Proof.
    destruct sp_dist as [[N1 _] [N2 _]]. rewrite two_hs_code by assumption.
    pose proof u0_pos. pose proof u1_pos. pose proof K_ge. pose proof invK.
    unfold sp_upper, sp_lower. rewrite v1_eq, w1_eq.
    cbn [app rsum only_upper oget both fst snd Z.eqb Pos.eqb lexp]. rewrite w0_eq, !exp_ln by nra.
    replace ((K - 1) * u1 - exp eps * ((K - 1) * (1 / K))) with ((K - 1) * (u1 - exp eps * (1 / K))) by lra.
    rewrite pos_scal by lra. lra.
  Qed.
  Lemma sp_code_hs_swap eps :
    hockey_stick (swap (two_exper Z.eqb sp_upper sp_lower)) eps =
    pos (1 / K - exp eps * u0) + (K - 1) * pos (1 / K - exp eps * u1).
  Proof.
    destruct sp_dist as [[N1 _] [N2 _]]. rewrite hockey_two_swap by (try assumption; apply Z.eqb_eq).
    rewrite two_hs_code by assumption.
    pose proof u0_pos. pose proof u1_pos. pose proof K_ge. pose proof invK.
    unfold sp_upper, sp_lower. rewrite v1_eq, w1_eq.
    cbn [app rsum only_upper oget both fst snd Z.eqb Pos.eqb lexp]. rewrite w0_eq, !exp_ln by nra.
    replace ((K - 1) * (1 / K) - exp eps * ((K - 1) * u1)) with ((K - 1) * (1 / K - exp eps * u1)) by lra.
    rewrite pos_scal by lra. lra.
  Qed.
End RR.

(** the pair of dictionaries has the curves of the mechanism *)
Definition rr_code (rel : relation) (p : R) (k : Z) : exper :=
  match rel with
  | REPLACE_SPECIAL => two_exper Z.eqb (sp_upper p k) (sp_lower k)
  | _ => two_exper Z.eqb (rr_upper p k) (rr_lower p k)
  end.

Lemma rr_pair_curves rel p k E eps : 0 < p < 1 -> (1 < k)%Z -> rr_pair rel p k E ->
  hockey_stick (rr_code rel p k) eps = hockey_stick E eps /\
  hockey_stick (swap (rr_code rel p k)) eps = hockey_stick (swap E) eps /\ valid E.
Proof.
  intros Hp Hk HE. destruct rel; cbn [rr_code rr_pair] in *; [contradiction| |].
  - destruct HE as (x & y & Hx & Hy & N & ->).
    rewrite rr_code_hs_swap, rr_code_hs, rr_hs by assumption.
    change (swap (rr_exper p k x y)) with (rr_exper p k y x).
    rewrite rr_hs by auto. split; [reflexivity|]. split; [reflexivity|]. apply rr_exper_valid; assumption.
  - destruct HE as (x & Hx & ->).
    rewrite sp_code_hs_swap, sp_code_hs, rr_special_hs, rr_special_hs_swap by assumption.
    split; [reflexivity|]. split; [reflexivity|]. apply rr_special_valid; assumption.
Qed.

Lemma rr_inv p k pess disc rel D : from_randomized_response p k pess disc rel = Ok D ->
  0 < p < 1 /\ (1 < k)%Z /\ rel <> ADD_OR_REMOVE_ONE /\
  match rel with
  | REPLACE_SPECIAL => from_two_pmfs Z.eqb (sp_lower k) (sp_upper p k) pess disc None false = Ok D
  | _ => from_two_pmfs Z.eqb (rr_lower p k) (rr_upper p k) pess disc None true = Ok D
  end.
Proof.
  unfold from_randomized_response. destruct (Rleb_spec p 0); [discriminate|].
  destruct (Rleb_spec 1 p); [discriminate|]. cbn [orb].
  destruct (Z.leb_spec k 1); [discriminate|]. intros HD.
  split; [lra|]. split; [assumption|]. destruct rel; [discriminate| |]; (split; [discriminate | exact HD]).
Qed.

Lemma rr_total p k pess disc rel : 0 < disc ->
  if (Rltb 0 p && Rltb p 1 && (1 <? k)%Z && negb (relation_eqb rel ADD_OR_REMOVE_ONE))%bool
  then exists D, from_randomized_response p k pess disc rel = Ok D
  else from_randomized_response p k pess disc rel = Err ValueError.
Proof.
  intros Hd. unfold from_randomized_response.
  destruct (Rltb_spec 0 p) as [L1|L1]; cbn [andb].
  2:{ rewrite Rleb_true by lra. reflexivity. }
  rewrite (Rleb_false p 0) by lra. cbn [orb].
  destruct (Rltb_spec p 1) as [L2|L2]; cbn [andb].
  2:{ rewrite Rleb_true by lra. reflexivity. }
  rewrite (Rleb_false 1 p) by lra.
  destruct (Z.ltb_spec 1 k) as [L3|L3]; destruct (Z.leb_spec k 1); try lia; cbn [andb]; [|reflexivity].
  destruct rel; cbn [relation_eqb negb]; [reflexivity| |]; apply two_total; assumption.
Qed.

Lemma rr_pessimistic p k disc rel D E : 0 < disc ->
  from_randomized_response p k true disc rel = Ok D -> rr_pair rel p k E ->
  sound_pld D /\ proper (pmf_remove D) /\ proper (pmf_add D) /\ pld_bounds D E /\
  forall eps, pmf_delta (pmf_remove D) (Fin eps) <= hockey_stick E (eps - disc) /\
              pmf_delta (pmf_add D) (Fin eps) <= hockey_stick (swap E) (eps - disc).
Proof.
  intros Hd H HE. destruct (rr_inv _ _ _ _ _ _ H) as (Hp & Hk & Hr & HD).
  assert (C := fun eps => rr_pair_curves rel p k E eps Hp Hk HE).
  destruct rel; [congruence| |]; cbn [rr_code] in C.
  - destruct (rr_dist p k Hp Hk) as [D1 D2].
    destruct (two_pessimistic Z.eqb Z.eqb_eq _ _ _ _ _ _ Hd D2 D1 HD) as (S & P1 & P2 & SY & V & F & A).
    split; [assumption|]. split; [assumption|]. split; [assumption|].
    assert (EA : pmf_add D = pmf_remove D) by (apply S; assumption).
    assert (CS : forall eps, hockey_stick (swap E) eps = hockey_stick E eps).
    { intros eps. destruct (C eps) as (C1 & C2 & _). rewrite <- C1, <- C2. apply rr_code_hs_swap; assumption. }
    split.
    + split; [apply (C 0)|]. split; intros eps; apply dp_iff_hockey; [|rewrite EA, CS];
        rewrite <- (proj1 (C eps)); apply F.
    + intros eps. rewrite EA, CS. rewrite <- (proj1 (C (eps - disc))).
      specialize (F eps). cbn [trunc_error] in F. lra.
  - destruct (sp_dist p k Hp Hk) as [D1 D2].
    destruct (two_pessimistic Z.eqb Z.eqb_eq _ _ _ _ _ _ Hd D2 D1 HD) as (S & P1 & P2 & SY & V & F & A).
    specialize (A eq_refl).
    split; [assumption|]. split; [assumption|]. split; [assumption|]. split.
    + split; [apply (C 0)|]. split; intros eps; apply dp_iff_hockey.
      * rewrite <- (proj1 (C eps)). apply F.
      * rewrite <- (proj1 (proj2 (C eps))). apply A.
    + intros eps. destruct (C (eps - disc)) as (C1 & C2 & _). rewrite <- C1, <- C2.
      specialize (F eps). specialize (A eps). cbn [trunc_error] in F, A. lra.
Qed.

Lemma rr_optimistic p k disc rel D E : 0 < disc ->
  from_randomized_response p k false disc rel = Ok D -> rr_pair rel p k E ->
  wf_pld D /\ forall eps,
   hockey_stick E (eps + disc) <= pmf_delta (pmf_remove D) (Fin eps) <= hockey_stick E eps /\
   hockey_stick (swap E) (eps + disc) <= pmf_delta (pmf_add D) (Fin eps) <= hockey_stick (swap E) eps.
Proof.
  intros Hd H HE. destruct (rr_inv _ _ _ _ _ _ H) as (Hp & Hk & Hr & HD).
  assert (C := fun eps => rr_pair_curves rel p k E eps Hp Hk HE).
  destruct rel; [congruence| |]; cbn [rr_code] in C.
  - destruct (rr_dist p k Hp Hk) as [D1 D2].
    destruct (two_optimistic Z.eqb Z.eqb_eq _ _ _ _ _ _ Hd D2 D1 HD) as (S & SY & F & G & _).
    specialize (G eq_refl).
    assert (EA : pmf_add D = pmf_remove D) by (apply S; assumption).
    assert (CS : forall eps, hockey_stick (swap E) eps = hockey_stick E eps).
    { intros eps. destruct (C eps) as (C1 & C2 & _). rewrite <- C1, <- C2. apply rr_code_hs_swap; assumption. }
    split; [assumption|]. intros eps. rewrite EA, !CS, <- (proj1 (C eps)), <- (proj1 (C (eps + disc))).
    specialize (F eps). specialize (G eps). lra.
  - destruct (sp_dist p k Hp Hk) as [D1 D2].
    destruct (two_optimistic Z.eqb Z.eqb_eq _ _ _ _ _ _ Hd D2 D1 HD) as (S & SY & F & G & A).
    specialize (G eq_refl). destruct (A eq_refl) as [A1 A2]. specialize (A2 eq_refl).
    split; [assumption|]. intros eps. destruct (C eps) as (C1 & C2 & _).
    destruct (C (eps + disc)) as (C3 & C4 & _). rewrite <- C1, <- C2, <- C3, <- C4.
    specialize (F eps). specialize (G eps). specialize (A1 eps). specialize (A2 eps). lra.
Qed.

(** the losses of the mechanism *)
Definition rr_losses (rel : relation) (p : R) (k : Z) : list R :=
  match rel with
  | REPLACE_SPECIAL => [ln (1 - p * (IZR k - 1) / IZR k) + ln (IZR k); ln p]
  | _ => [ln ((1 - p * (IZR k - 1) / IZR k) / (p / IZR k))]
  end.

Lemma rr_exact p k pess disc rel D E : 0 < disc ->
  from_randomized_response p k pess disc rel = Ok D -> rr_pair rel p k E ->
  (forall l, In l (rr_losses rel p k) -> exists n, l = IZR n * disc) ->
  forall eps, pmf_delta (pmf_remove D) (Fin eps) = hockey_stick E eps /\
              pmf_delta (pmf_add D) (Fin eps) = hockey_stick (swap E) eps.
Proof.
  intros Hd H HE HL eps. destruct (rr_inv _ _ _ _ _ _ H) as (Hp & Hk & Hr & HD).
  assert (C := rr_pair_curves rel p k E eps Hp Hk HE).
  pose proof (u0_pos p k Hp Hk) as U0. pose proof (u1_pos p k Hp Hk) as U1.
  destruct rel; [congruence| |]; cbn [rr_code rr_losses] in *.
  - destruct (rr_dist p k Hp Hk) as [D1 D2].
    destruct (HL _ (or_introl eq_refl)) as [n En]. fold (u0 p k) (u1 p k) in En.
    unfold Rdiv in En. rewrite ln_mult, ln_Rinv in En by (try apply Rinv_0_lt_compat; lra).
    assert (G : forall o lp lq, In (o, Some lp) (rr_upper p k) -> In (o, Some lq) (rr_lower p k) ->
      exists m, lp - lq = IZR m * disc).
    { intros o lp lq H1 H2. destruct D1 as [N1 _], D2 as [N2 _].
      apply (oget_In Z.eqb Z.eqb_eq _ _ _ N1) in H1. apply (oget_In Z.eqb Z.eqb_eq _ _ _ N2) in H2.
      unfold rr_upper, rr_lower, more in H1, H2.
      cbn [oget app] in H1, H2. destruct (Z.eqb_spec 0 o).
      - injection H1 as <-. injection H2 as <-. exists n. lra.
      - destruct (Z.eqb_spec 1 o).
        + injection H1 as <-. injection H2 as <-. exists (- n)%Z. rewrite opp_IZR. lra.
        + rewrite H1 in H2. injection H2 as <-. exists 0%Z. lra. }
    destruct (two_exact Z.eqb Z.eqb_eq _ _ _ _ _ _ Hd D2 D1 G HD) as [F _].
    destruct (two_inv Z.eqb _ _ _ _ _ _ _ HD) as (_ & _ & EA). rewrite EA, !F.
    destruct C as (C1 & C2 & _). rewrite <- C1, <- C2. split; [reflexivity|].
    symmetry. apply rr_code_hs_swap; assumption.
  - destruct (sp_dist p k Hp Hk) as [D1 D2].
    destruct (HL _ (or_introl eq_refl)) as [n En]. fold (u0 p k) in En.
    destruct (HL _ (or_intror (or_introl eq_refl))) as [m Em].
    assert (G : forall o lp lq, In (o, Some lp) (sp_upper p k) -> In (o, Some lq) (sp_lower k) ->
      exists m, lp - lq = IZR m * disc).
    { intros o lp lq H1 H2. destruct D1 as [N1 _], D2 as [N2 _].
      apply (oget_In Z.eqb Z.eqb_eq _ _ _ N1) in H1. apply (oget_In Z.eqb Z.eqb_eq _ _ _ N2) in H2.
      unfold sp_upper, sp_lower in H1, H2. cbn [oget] in H1, H2. destruct (Z.eqb_spec 0 o).
      - injection H1 as <-. injection H2 as <-. exists n. lra.
      - destruct (Z.eqb_spec 1 o); [|discriminate].
        injection H1 as <-. injection H2 as <-. exists m. rewrite <- Em.
        pose proof (K_ge k Hk) as KG. rewrite (v1_eq p k), (w1_eq p k) by assumption. unfold u1.
        assert (0 < / IZR k) by (apply Rinv_0_lt_compat; lra).
        unfold Rdiv. rewrite Rmult_1_l, !ln_mult by (try lra; apply Rmult_lt_0_compat; lra). lra. }
    destruct (two_exact Z.eqb Z.eqb_eq _ _ _ _ _ _ Hd D2 D1 G HD) as [F A].
    rewrite F, (A eq_refl). destruct C as (C1 & C2 & _). auto.
Qed.
