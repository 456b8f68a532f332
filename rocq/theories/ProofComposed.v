(** get_delta_for_epsilon_for_composed_pld equals composing first. *)
From Verif Require Import Base XReal Exn PyDict ModelCommon ModelPmf ModelPld SpecDP SpecPmf SpecPld
  ProofDP ProofDict ProofPmf ProofCompose ProofCompose2 ProofQuery ProofPld ProofSelf.

Section Loop.
  Variables (l1 l2 : list R) (lo1 lo2 : Z) (disc eps : R).
  Hypothesis Hd : 0 < disc.
  Let loss1 (i : Z) : R := IZR (i + lo1) * disc.
  Let loss2 (j : Z) : R := IZR (j + lo2) * disc.
  Let n1 := Z.of_nat (length l1).
  Let n2 := Z.of_nat (length l2).
  Let P1 (i : Z) := nth (Z.to_nat i) l1 0.
  Let P2 (j : Z) := nth (Z.to_nat j) l2 0.

  (** mass consumed when the pointer stands at [jc] *)
  Definition above (f : Z -> R) (jc : Z) : R :=
    rsum (fun j => if (jc <? j)%Z then f j else 0) (zrange 0 (length l2)).

  Lemma above_step f jc : (jc < n2)%Z ->
    above f (jc - 1) = if (0 <=? jc)%Z then above f jc + f jc else above f jc.
  Proof.
    intros H. unfold above. destruct (Z.leb_spec 0 jc).
    - transitivity (rsum (fun j => (if (jc <? j)%Z then f j else 0) + ind j jc * f j) (zrange 0 (length l2))).
      + apply rsum_ext. intros j _. unfold ind.
        destruct (Z.ltb_spec (jc - 1) j), (Z.ltb_spec jc j), (Z.eqb_spec jc j); try lia; try lra; subst; lra.
      + rewrite rsum_plus, rsum_ind by apply zrange_NoDup.
        destruct (in_dec Z.eq_dec jc (zrange 0 (length l2))) as [_|N]; [reflexivity|].
        exfalso. apply N, zrange_In. fold n2. lia.
    - apply rsum_ext. intros j Hj. apply zrange_In in Hj.
      destruct (Z.ltb_spec (jc - 1) j), (Z.ltb_spec jc j); try lia; reflexivity.
  Qed.

  Lemma above_top f : above f (n2 - 1) = 0.
  Proof.
    unfold above. apply rsum_zero. intros j Hj. apply zrange_In in Hj. fold n2 in Hj.
    destruct (Z.ltb_spec (n2 - 1) j); [lia | reflexivity].
  Qed.

  Let lowf (j : Z) := P2 j * exp (- loss2 j).

  Lemma loss1_S i : loss1 (i + 1) = loss1 i + disc.
  Proof. unfold loss1. rewrite !plus_IZR. lra. Qed.
  Lemma loss2_P j : loss2 (j - 1) = loss2 j - disc.
  Proof. unfold loss2. rewrite !plus_IZR, minus_IZR. lra. Qed.
  Lemma loss_mono2 a b : (a <= b)%Z -> loss2 a <= loss2 b.
  Proof. intros H. unfold loss2. apply IZR_le in H. rewrite !plus_IZR. nra. Qed.
  Lemma loss_mono1 a b : (a <= b)%Z -> loss1 a <= loss1 b.
  Proof. intros H. unfold loss1. apply IZR_le in H. rewrite !plus_IZR. nra. Qed.

  Lemma adv_j_ok i : forall fuel j, fuel = Z.to_nat (j + 1) -> (-1 <= j < n2)%Z ->
    eps <= loss1 i + loss2 j ->
    exists j', adv_j fuel (loss1 i) loss2 l2 eps j (above P2 j) (above lowf j) =
       (j', above P2 j', above lowf j') /\ (-1 <= j' < n2)%Z /\
       eps <= loss1 i + loss2 j' /\ ((0 <= j')%Z -> loss1 i + loss2 (j' - 1) < eps).
  Proof.
    induction fuel as [|fuel IH]; intros j Hf Hj Hk.
    - exists j. cbn [adv_j]. repeat split; auto; lia.
    - cbn [adv_j]. destruct (Z.leb_spec 0 j); [|lia]. cbn [andb].
      destruct (Rleb_spec eps (loss1 i + loss2 (j - 1))) as [H1|H1].
      + destruct (IH (j - 1)%Z ltac:(lia) ltac:(lia) H1) as (j' & E & R). exists j'. split; [|exact R].
        rewrite <- E. f_equal; rewrite above_step by lia; destruct (Z.leb_spec 0 j); try lia; reflexivity.
      + exists j. repeat split; auto; lia || lra.
  Qed.

  Lemma adv_i_ok : forall fuel i, (0 <= i)%Z -> (n1 - i <= Z.of_nat fuel)%Z -> (i <= n1 - 1)%Z ->
    eps < loss1 (n1 - 1)%Z + loss2 (n2 - 1)%Z ->
    exists i', adv_i fuel loss1 (loss2 (n2 - 1)%Z) eps i = Ok i' /\ (i <= i' <= n1 - 1)%Z /\
      eps <= loss1 i' + loss2 (n2 - 1)%Z /\
      forall k, (i <= k < i')%Z -> loss1 k + loss2 (n2 - 1)%Z < eps.
  Proof.
    induction fuel as [|fuel IH]; intros i Hi Hf Hn Htop; cbn [adv_i].
    - lia.
    - destruct (Rltb_spec (loss1 i + loss2 (n2 - 1)%Z) eps) as [H|H].
      + assert (i <> n1 - 1)%Z by (intros ->; lra).
        destruct (IH (i + 1)%Z ltac:(lia) ltac:(lia) ltac:(lia) Htop) as (i' & E & R1 & R2 & R3).
        exists i'. repeat split; auto; try lia. intros k Hk.
        destruct (Z.eq_dec k i) as [->|]; [assumption | apply R3; lia].
      + exists i. repeat split; auto; try lia. lra.
  Qed.

  (** the inner sum for one value of i *)
  Definition inner (i : Z) : R :=
    rsum (fun j => P2 j * pos (1 - exp (eps - (loss1 i + loss2 j)))) (zrange 0 (length l2)).

  Lemma inner_above i jc : (jc < n2)%Z -> eps <= loss1 i + loss2 (jc + 1) ->
    ((0 <= jc)%Z -> loss1 i + loss2 jc < eps) ->
    above P2 jc - exp (eps - loss1 i) * above lowf jc = inner i.
  Proof.
    intros Hj H1 H2. unfold above, inner. rewrite <- rsum_scal, <- rsum_minus. apply rsum_ext.
    intros j Hj'. apply zrange_In in Hj'. destruct (Z.ltb_spec jc j) as [H|H].
    - assert (loss2 (jc + 1) <= loss2 j) by (apply loss_mono2; lia).
      rewrite pos_eq.
      + unfold lowf. replace (eps - (loss1 i + loss2 j)) with ((eps - loss1 i) + - loss2 j) by lra.
        rewrite exp_plus. lra.
      + assert (exp (eps - (loss1 i + loss2 j)) <= exp 0) by (apply exp_le; lra). rewrite exp_0 in *. lra.
    - assert (loss2 j <= loss2 jc) by (apply loss_mono2; lia). specialize (H2 ltac:(lia)).
      rewrite pos_0; [lra|].
      assert (exp 0 <= exp (eps - (loss1 i + loss2 j))) by (apply exp_le; lra). rewrite exp_0 in *. lra.
  Qed.

  Lemma fold_ok : forall n i j delta, (j < n2)%Z ->
    eps <= loss1 i + loss2 j -> ((0 <= j)%Z -> loss1 i + loss2 (j - 1) < eps) ->
    snd (fold_left (composed_step loss1 loss2 l1 l2 eps) (zrange i n)
           (j, above P2 j, above lowf j, delta)) =
    delta + rsum (fun i => P1 i * inner i) (zrange i n).
  Proof.
    induction n as [|n IH]; intros i j delta Hj H1 H2; cbn [zrange fold_left rsum]; [cbn [snd]; lra|].
    assert (ES : composed_step loss1 loss2 l1 l2 eps (j, above P2 j, above lowf j, delta) i =
      ((j - 1)%Z, above P2 (j - 1), above lowf (j - 1), delta + P1 i * inner i)).
    { rewrite <- (inner_above i (j - 1)%Z).
      - unfold composed_step.
        assert (U : (if (0 <=? j)%Z then above P2 j + nth (Z.to_nat j) l2 0 else above P2 j) = above P2 (j - 1))
          by (rewrite (above_step P2 j Hj); reflexivity).
        assert (L : (if (0 <=? j)%Z then above lowf j + nth (Z.to_nat j) l2 0 * exp (- loss2 j) else above lowf j)
                    = above lowf (j - 1))
          by (rewrite (above_step lowf j Hj); reflexivity).
        cbv zeta. rewrite U, L. reflexivity.
      - lia.
      - replace (j - 1 + 1)%Z with j by lia. assumption.
      - intros Hp. apply H2. lia. }
    rewrite ES, IH; [lra | lia | |].
    - rewrite loss1_S, loss2_P. lra.
    - intros Hp. rewrite loss1_S, loss2_P. specialize (H2 ltac:(lia)). lra.
  Qed.

  Lemma inner_zero i : loss1 i + loss2 (n2 - 1)%Z <= eps -> inner i = 0.
  Proof.
    intros H. unfold inner. apply rsum_zero. intros j Hj. apply zrange_In in Hj. fold n2 in Hj.
    assert (loss2 j <= loss2 (n2 - 1)%Z) by (apply loss_mono2; lia).
    rewrite pos_0; [lra|].
    assert (exp 0 <= exp (eps - (loss1 i + loss2 j))) by (apply exp_le; lra). rewrite exp_0 in *. lra.
  Qed.

  Lemma inner_lsum :
    rsum (fun i => P1 i * inner i) (zrange 0 (length l1)) =
    lsum lo1 l1 (fun a => lsum lo2 l2 (fun b => hgain disc eps (a + b))).
  Proof.
    replace lo1 with (0 + lo1)%Z by lia. rewrite lsum_shift, lsum_zr. apply rsum_ext. intros i _.
    rewrite Z.sub_0_r. f_equal. unfold inner. replace lo2 with (0 + lo2)%Z by lia.
    rewrite lsum_shift, lsum_zr.
    apply rsum_ext. intros j _. rewrite Z.sub_0_r. f_equal. unfold hgain.
    do 3 f_equal. unfold loss1, loss2. rewrite !plus_IZR. lra.
  Qed.
End Loop.

Lemma pmf_composed_delta_ok p q r eps : wf p -> wf q ->
  infinity_mass p <= 1 \/ infinity_mass q <= 1 ->
  pmf_size p <> 0%nat -> pmf_size q <> 0%nat ->
  compose_pmfs p q 0 = Ok r -> pmf_composed_delta p q eps = Ok (pmf_delta r (Fin eps)).
Proof.
  intros Wp Wq HI Sp Sq H. apply compose_pmfs_ok in H; [|assumption..].
  assert (Wr := compose_wf _ _ _ _ Wp Wq HI H).
  destruct (co_exact _ _ _ _ H eq_refl) as [X I].
  unfold pmf_composed_delta.
  assert (NE : forall a, pmf_size a <> 0%nat -> wf a -> exists a' lo l, to_dense a = Ok a' /\
      pmf_body a' = Dense lo l /\ l <> []).
  { intros a Ha Wa. destruct (to_dense_total a Ha) as [a' Ea].
    destruct (to_dense_ok a a' Wa Ea) as (_ & _ & _ & _ & _ & lo & l & B).
    exists a', lo, l. split; [assumption|]. split; [assumption|].
    unfold to_dense in Ea. unfold pmf_size in Ha. destruct (pmf_body a) as [d|lo0 l0] eqn:Eb.
    - destruct (dictionary_to_list d) as [[lo' l']|] eqn:Ed; [|discriminate]. cbn [bind] in Ea.
      injection Ea as <-. cbn [pmf_body] in B. injection B as -> ->.
      destruct (dictionary_to_list_ok d _ _ Ed) as (n & -> & Hn & _).
      intros E. apply (f_equal (@length R)) in E. rewrite map_length, zrange_length in E. simpl in E. lia.
    - injection Ea as <-. rewrite Eb in B. injection B as -> ->. intros ->. apply Ha. reflexivity. }
  destruct (NE p Sp Wp) as (p' & lo1 & l1 & Ep & Bp & Np).
  destruct (NE q Sq Wq) as (q' & lo2 & l2 & Eq & Bq & Nq).
  rewrite Ep, Eq. cbn [bind].
  destruct (to_dense_ok p p' Wp Ep) as (Wp' & Xp & Ip & Dp & Pp & _).
  destruct (to_dense_ok q q' Wq Eq) as (Wq' & Xq & Iq & Dq & Pq & _).
  unfold validate_composable, same_class. rewrite Bp, Bq. cbn [negb].
  rewrite Dp, Dq, (co_disc _ _ _ _ H), Reqb_refl. cbn [negb].
  rewrite Pp, Pq, (co_pess _ _ _ _ H), eqb_reflx. cbn [negb bind].
  assert (ED : pmf_delta r (Fin eps) = combine_inf (infinity_mass p') (infinity_mass q') +
     rsum (fun i => nth (Z.to_nat i) l1 0 * inner l2 lo1 lo2 (discretization p) eps i) (zrange 0 (length l1))).
  { rewrite pmf_delta_psum by assumption. unfold ptest.
    rewrite (co_rdisc _ _ _ _ H), X, I, Ip, Iq, inner_lsum.
    rewrite <- (conv2_ext p q p' q') by assumption.
    unfold conv2, psum. rewrite Bp, Bq. lra. }
  set (disc := discretization p) in *. assert (Hd : 0 < disc) by apply Wp.
  cbv zeta. set (loss1 := fun i => IZR (i + lo1) * disc). set (loss2 := fun i => IZR (i + lo2) * disc).
  set (n1 := Z.of_nat (length l1)). set (n2 := Z.of_nat (length l2)).
  assert (Hn1 : (1 <= n1)%Z) by (unfold n1; destruct l1; [congruence | simpl; lia]).
  assert (Hn2 : (1 <= n2)%Z) by (unfold n2; destruct l2; [congruence | simpl; lia]).
  change (IZR (n2 - 1 + lo2) * disc) with (loss2 (n2 - 1)%Z).
  change (IZR (n1 - 1 + lo1) * disc) with (loss1 (n1 - 1)%Z).
  destruct (Rleb_spec (loss1 (n1 - 1)%Z + loss2 (n2 - 1)%Z) eps) as [Ht|Ht].
  - f_equal. rewrite ED. rewrite rsum_zero; [lra|]. intros i Hi. apply zrange_In in Hi. fold n1 in Hi.
    rewrite (inner_zero l1 l2 lo1 lo2 disc eps Hd i); [lra|]. fold n2.
    assert (loss1 i <= loss1 (n1 - 1)%Z) by (apply (loss_mono1 lo1 disc Hd); lia).
    unfold loss1, loss2 in *. lra.
  - apply Rnot_le_lt in Ht.
    destruct (adv_i_ok l1 l2 lo1 lo2 disc eps (length l1) 0) as (i0 & E1 & R1 & R2 & R3);
      [lia | lia | fold n1; lia | exact Ht |].
    fold loss1 in E1. fold n2 in E1. change (IZR (n2 - 1 + lo2) * disc) with (loss2 (n2 - 1)%Z) in E1.
    rewrite E1. cbn [bind]. change (IZR (i0 + lo1) * disc) with (loss1 i0).
    destruct (adv_j_ok l1 l2 lo1 lo2 disc eps i0 (length l2) (n2 - 1)%Z) as (j0 & E2 & Q1 & Q2 & Q3);
      [unfold n2; lia | fold n2; lia | exact R2 |].
    unfold n2 in E2. rewrite !(above_top l1) in E2. fold n2 in E2. fold loss2 in E2.
    change (IZR (i0 + lo1) * disc) with (loss1 i0) in E2.
    rewrite E2.
    pose proof (fold_ok l1 l2 lo1 lo2 disc eps Hd (Z.to_nat (n1 - i0)) i0 j0
      (combine_inf (infinity_mass p') (infinity_mass q')) ltac:(fold n2; lia) Q2 Q3) as EF.
    fold loss1 in EF. fold loss2 in EF.
    match type of EF with snd ?t = _ => 
      match goal with |- context [fold_left ?f ?l ?a] => change t with (fold_left f l a) in EF;
        destruct (fold_left f l a) as [[[a1 b1] c1] dl] end end.
    cbn [snd] in EF. f_equal. rewrite EF, ED. f_equal.
    replace (length l1) with (Z.to_nat i0 + Z.to_nat (n1 - i0))%nat by (unfold n1; lia).
    rewrite zrange_app, rsum_app. replace (0 + Z.of_nat (Z.to_nat i0))%Z with i0 by lia.
    rewrite (rsum_zero _ (zrange 0 (Z.to_nat i0))); [lra|].
    intros i Hi. apply zrange_In in Hi. rewrite (inner_zero l1 l2 lo1 lo2 disc eps Hd i); [lra|].
    left. apply R3. lia.
Qed.

Lemma pld_composed_delta_ok D D' r eps :
  sound_pld D -> sound_pld D' ->
  pmf_size (pmf_remove D) <> 0%nat -> pmf_size (pmf_remove D') <> 0%nat ->
  pmf_size (pmf_add D) <> 0%nat -> pmf_size (pmf_add D') <> 0%nat ->
  pld_compose D D' 0 = Ok r ->
  pld_composed_delta D D' eps = Ok (pld_delta r (Fin eps)).
Proof.
  intros ((W1 & I1 & _) & (W2 & I2 & _) & S) ((W1' & I1' & _) & (W2' & I2' & _) & S') N1 N1' N2 N2' H.
  pose proof H as H0.
  destruct (pld_compose_inv _ _ _ _ H S S') as (C1 & C2 & SR).
  unfold pld_composed_delta, pld_delta.
  rewrite (pmf_composed_delta_ok _ _ _ eps W1 W1' (or_introl I1) N1 N1' C1). cbn [bind].
  assert (Sr : symmetric r = (symmetric D && symmetric D')%bool).
  { unfold pld_compose in H0. rewrite C1 in H0. cbn [bind] in H0.
    destruct (symmetric D && symmetric D')%bool; [injection H0 as <-; reflexivity|].
    rewrite C2 in H0. cbn [bind] in H0. injection H0 as <-. reflexivity. }
  rewrite Sr. destruct (symmetric D && symmetric D')%bool; [reflexivity|].
  rewrite (pmf_composed_delta_ok _ _ _ eps W2 W2' (or_introl I2) N2 N2' C2). reflexivity.
Qed.
